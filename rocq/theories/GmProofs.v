(** Proofs for C63: the Arnoldi relation, the rotations and the residual. *)
From Coq Require Import List Arith Bool Lia Ring Field.
From Verif Require Import Util BigSum DavSpec DavProofs GmSpec GmModel.
Import ListNotations.
Local Open Scope outcome_scope.
Local Arguments Nat.sub : simpl never.

Section Gm.
Context {F : Type} (f0 f1 : F) (fadd fmul fsub : F -> F -> F) (fopp : F -> F) (fdiv : F -> F -> F) (finv : F -> F)
  (fltb : F -> F -> bool) (fsqrt : F -> outcome F).
Context (OF : ordered_field f0 f1 fadd fmul fsub fopp fdiv finv fltb) (FS : sqrt_ok f0 fmul fltb fsqrt).
Context {T : Type} (t0 t1 : T) (tadd tmul tsub : T -> T -> T) (topp : T -> T) (tdiv : T -> T -> T) (tinv : T -> T)
  (teqb : T -> T -> bool) (tconj : T -> T) (emb : F -> T) (tabs : T -> outcome F) (tsqrt : T -> outcome T) (re : T -> F).
Context (SC : scalars f0 f1 fadd fmul fltb t0 t1 tadd tmul tsub topp tdiv tinv teqb tconj emb tabs tsqrt) (RE : forall x, re (emb x) = x).
Context {V : Type} (vadd : V -> V -> V) (vscale : T -> V -> V) (dot : V -> V -> T) (A : V -> V).
Context (SP : space f0 fltb t0 tadd tmul tconj emb vadd vscale dot) (LI : linear vadd vscale dot A).
Context (CASE : (forall t, tconj t = t) \/ self_adjoint dot A).

Let FT := of_field _ _ _ _ _ _ _ _ _ OF.
Let TF : field_theory t0 t1 tadd tmul tsub topp tdiv tinv eq := sc_field _ _ _ _ _ _ _ _ _ _ _ _ _ _ _ _ _ _ SC.
Let TR : ring_theory t0 t1 tadd tmul tsub topp eq := F_R TF.
Add Field FFgm : FT.
Add Field TTgm : TF.
Notation le x y := (fltb y x = false).
Notation lt x y := (fltb x y = true).
Notation bsum := (bsum t0 tadd).
Notation "x + y" := (tadd x y). Notation "x * y" := (tmul x y). Notation "x - y" := (tsub x y). Notation "- x" := (topp x).
Notation vsub := (vsub t1 topp vadd vscale).
Notation veq := (veq dot).
Notation vzero := (vzero t0 dot).
Notation orthonormal := (orthonormal t0 t1 dot).
Notation tdivo := (tdivo t0 tmul tinv teqb).
Notation rotate_all := (rotate_all tadd tmul topp tconj).
Notation apply_rotation := (apply_rotation tadd tmul topp tconj).
Notation generate_rotation := (generate_rotation fltb t0 t1 tadd tmul tinv teqb tabs tsqrt).
Notation backsolve := (backsolve t0 tmul tsub tinv teqb).
Notation addup := (addup vadd vscale).
Notation arnoldi := (arnoldi topp vadd vscale dot).
Notation vnorm := (vnorm fsqrt re dot).
Notation residual2 := (residual2 t1 topp emb vadd vscale dot).

Lemma s_eqb : forall x y, teqb x y = true <-> x = y. Proof. apply (sc_eqb _ _ _ _ _ _ _ _ _ _ _ _ _ _ _ _ _ _ SC). Qed.
Lemma s_0 : emb f0 = t0. Proof. apply (sc_0 _ _ _ _ _ _ _ _ _ _ _ _ _ _ _ _ _ _ SC). Qed.
Lemma s_1 : emb f1 = t1. Proof. apply (sc_1 _ _ _ _ _ _ _ _ _ _ _ _ _ _ _ _ _ _ SC). Qed.
Lemma s_add : forall x y, emb (fadd x y) = emb x + emb y. Proof. apply (sc_add _ _ _ _ _ _ _ _ _ _ _ _ _ _ _ _ _ _ SC). Qed.
Lemma s_mul : forall x y, emb (fmul x y) = emb x * emb y. Proof. apply (sc_mul _ _ _ _ _ _ _ _ _ _ _ _ _ _ _ _ _ _ SC). Qed.
Lemma s_inj : forall x y, emb x = emb y -> x = y. Proof. apply (sc_inj _ _ _ _ _ _ _ _ _ _ _ _ _ _ _ _ _ _ SC). Qed.
Lemma cj_add : forall x y, tconj (x + y) = tconj x + tconj y. Proof. apply (sc_conj_add _ _ _ _ _ _ _ _ _ _ _ _ _ _ _ _ _ _ SC). Qed.
Lemma cj_mul : forall x y, tconj (x * y) = tconj x * tconj y. Proof. apply (sc_conj_mul _ _ _ _ _ _ _ _ _ _ _ _ _ _ _ _ _ _ SC). Qed.
Lemma cj_cj : forall x, tconj (tconj x) = x. Proof. apply (sc_conj_conj _ _ _ _ _ _ _ _ _ _ _ _ _ _ _ _ _ _ SC). Qed.
Lemma cj_emb : forall x, tconj (emb x) = emb x. Proof. intros x. apply (sc_real _ _ _ _ _ _ _ _ _ _ _ _ _ _ _ _ _ _ SC). eauto. Qed.
Lemma s_abs : forall x a, tabs (emb x) = Ok a -> fmul a a = fmul x x /\ fltb a f0 = false.
Proof. intros x a H. destruct (sc_abs _ _ _ _ _ _ _ _ _ _ _ _ _ _ _ _ _ _ SC _ _ H) as (E & P). split; [|exact P]. apply s_inj. rewrite E, cj_emb, s_mul. reflexivity. Qed.
Lemma cj_0 : tconj t0 = t0. Proof. rewrite <- s_0. apply cj_emb. Qed.
Lemma cj_1 : tconj t1 = t1. Proof. rewrite <- s_1. apply cj_emb. Qed.
Lemma cj_opp : forall x, tconj (- x) = - tconj x.
Proof. intros x. assert (E : tconj (- x) + tconj x = t0) by (rewrite <- cj_add; replace (- x + x) with t0 by ring; apply cj_0). transitivity (tconj (- x) + tconj x - tconj x); [ring|]. rewrite E. ring. Qed.
Lemma s_opp : forall x, emb (fopp x) = - emb x.
Proof. intros x. assert (E : emb (fopp x) + emb x = t0) by (rewrite <- s_add, <- s_0; f_equal; ring). transitivity (emb (fopp x) + emb x - emb x); [ring|]. rewrite E. ring. Qed.
Definition isreal (t : T) : Prop := exists r, t = emb r.
Lemma real_iff : forall t, tconj t = t <-> isreal t. Proof. apply (sc_real _ _ _ _ _ _ _ _ _ _ _ _ _ _ _ _ _ _ SC). Qed.
Lemma real_add : forall x y, isreal x -> isreal y -> isreal (x + y).
Proof. intros x y (a & ->) (b & ->). exists (fadd a b). rewrite s_add. reflexivity. Qed.
Lemma real_mul : forall x y, isreal x -> isreal y -> isreal (x * y).
Proof. intros x y (a & ->) (b & ->). exists (fmul a b). rewrite s_mul. reflexivity. Qed.
Lemma real_opp : forall x, isreal x -> isreal (- x).
Proof. intros x (a & ->). exists (fopp a). rewrite s_opp. reflexivity. Qed.
Lemma real_0 : isreal t0. Proof. exists f0. symmetry. apply s_0. Qed.
Lemma t10 : t1 <> t0. Proof. exact (F_1_neq_0 TF). Qed.

(** * Vectors *)
Lemma d_add : forall u v w, dot u (vadd v w) = dot u v + dot u w. Proof. apply (sp_add _ _ _ _ _ _ _ _ _ _ SP). Qed.
Lemma d_scale : forall c u v, dot u (vscale c v) = c * dot u v. Proof. apply (sp_scale _ _ _ _ _ _ _ _ _ _ SP). Qed.
Lemma d_conj : forall u v, dot v u = tconj (dot u v). Proof. apply (sp_conj _ _ _ _ _ _ _ _ _ _ SP). Qed.
Lemma d_pos : forall v, exists p, dot v v = emb p /\ le f0 p. Proof. apply (sp_pos _ _ _ _ _ _ _ _ _ _ SP). Qed.
Lemma d_def : forall v, dot v v = t0 -> vzero v. Proof. apply (sp_def _ _ _ _ _ _ _ _ _ _ SP). Qed.
Lemma d_sub : forall u v w, dot u (vsub v w) = dot u v - dot u w.
Proof. intros. unfold GmSpec.vsub. rewrite d_add, d_scale. ring. Qed.
Lemma d_addl : forall u v w, dot (vadd v w) u = dot v u + dot w u.
Proof. intros. rewrite (d_conj u (vadd v w)), d_add, cj_add, <- !d_conj. reflexivity. Qed.
Lemma d_scalel : forall c u v, dot (vscale c v) u = tconj c * dot v u.
Proof. intros. rewrite (d_conj u (vscale c v)), d_scale, cj_mul, <- d_conj. reflexivity. Qed.
Lemma veq_l : forall v w u, veq v w -> dot v u = dot w u.
Proof. intros v w u H. rewrite (d_conj u v), (d_conj u w), H. reflexivity. Qed.
Lemma a_add : forall u v w, dot u (A (vadd v w)) = dot u (A v) + dot u (A w).
Proof. intros. rewrite (li_add _ _ _ _ LI v w u). apply d_add. Qed.
Lemma a_scale : forall c u v, dot u (A (vscale c v)) = c * dot u (A v).
Proof. intros. rewrite (li_scale _ _ _ _ LI c v u). apply d_scale. Qed.
Lemma vnorm_ok : forall v r, vnorm v = Ok r -> dot v v = emb (fmul r r) /\ le f0 r.
Proof.
  intros v r H. unfold GmModel.vnorm in H. destruct (d_pos v) as (p & E & _). rewrite E, RE in H. destruct (FS _ _ H) as (E2 & P).
  split; [rewrite E2; exact E|exact P].
Qed.

(** u is the sum of the y_k v_k. *)
Definition spans (n : nat) (vv : nat -> V) (y : nat -> T) (u : V) : Prop := forall w, dot w u = bsum n (fun k => y k * dot w (vv k)).
Lemma bs_S : forall n f, bsum (S n) f = bsum n f + f n. Proof. reflexivity. Qed.
Lemma bs_ext : forall n f g, (forall i, i < n -> f i = g i) -> bsum n f = bsum n g. Proof. apply (bsum_ext t0 tadd). Qed.
Lemma bs_zero : forall n f, (forall i, i < n -> f i = t0) -> bsum n f = t0. Proof. apply (bsum_zero t0 t1 tadd tmul tsub topp TR). Qed.
Lemma bs_add : forall n f g, bsum n (fun i => f i + g i) = bsum n f + bsum n g. Proof. apply (bsum_add t0 t1 tadd tmul tsub topp TR). Qed.
Lemma bs_mul : forall n c f, bsum n (fun i => c * f i) = c * bsum n f. Proof. apply (bsum_mul_l t0 t1 tadd tmul tsub topp TR). Qed.
Lemma bs_mulr : forall n c f, bsum n (fun i => f i * c) = bsum n f * c. Proof. apply (bsum_mul_r t0 t1 tadd tmul tsub topp TR). Qed.
Lemma bs_swap : forall n m f, bsum n (fun i => bsum m (fun j => f i j)) = bsum m (fun j => bsum n (fun i => f i j)). Proof. apply (bsum_swap t0 t1 tadd tmul tsub topp TR). Qed.
Lemma bs_conj : forall n f, tconj (bsum n f) = bsum n (fun i => tconj (f i)).
Proof. induction n as [|n IH]; intros f; cbn [BigSum.bsum]; [apply cj_0|]. rewrite cj_add, IH. reflexivity. Qed.
(** A sum may be extended by zeros. *)
Lemma bs_more : forall n m f, n <= m -> (forall k, n <= k -> k < m -> f k = t0) -> bsum m f = bsum n f.
Proof.
  intros n m f H Z. induction m as [|m IH]; [replace n with 0 by lia; reflexivity|]. destruct (Nat.eq_dec n (S m)) as [->|]; [reflexivity|].
  rewrite bs_S, IH, Z by (intros; try apply Z; lia). ring.
Qed.
Lemma bs_pick : forall n i (f : nat -> T), i < n -> bsum n (fun k => f k * (if i =? k then t1 else t0)) = f i.
Proof.
  intros n i f Hi. rewrite <- (bsum_delta t0 t1 tadd tmul tsub topp TR n i f Hi). apply bs_ext. intros k _. unfold delta. ring.
Qed.
Lemma spans_dot : forall n vv y u i, orthonormal n vv -> spans n vv y u -> i < n -> dot (vv i) u = y i.
Proof.
  intros n vv y u i ON S Hi. rewrite S. rewrite <- (bs_pick n i y Hi). apply bs_ext. intros k Hk. rewrite ON by assumption. reflexivity.
Qed.
Lemma spans_norm : forall n vv y u, orthonormal n vv -> spans n vv y u -> dot u u = bsum n (fun k => tconj (y k) * y k).
Proof.
  intros n vv y u ON S. rewrite S. apply bs_ext. intros k Hk. rewrite (d_conj (vv k) u), (spans_dot n vv y u k ON S Hk). ring.
Qed.
Lemma sum_pos : forall n (f : nat -> T), (forall k, k < n -> exists p, f k = emb p /\ le f0 p) -> exists p, bsum n f = emb p /\ le f0 p.
Proof.
  induction n as [|n IH]; intros f H; [exists f0; split; [symmetry; apply s_0|apply (le_refl _ _ _ _ _ _ _ _ _ OF)]|].
  destruct (IH f (fun k Hk => H k (Nat.lt_lt_succ_r _ _ Hk))) as (p & E & P). destruct (H n (Nat.lt_succ_diag_r n)) as (q & E2 & Q).
  exists (fadd p q). rewrite bs_S, E, E2, s_add. split; [reflexivity|]. replace f0 with (fadd f0 f0) by ring. apply (le_add2 _ _ _ _ _ _ _ _ _ OF); assumption.
Qed.
Lemma sq_pos : forall z, exists p, tconj z * z = emb p /\ le f0 p. Proof. apply (sc_pos _ _ _ _ _ _ _ _ _ _ _ _ _ _ _ _ _ _ SC). Qed.
(** One term of a sum of |z_k|^2 is at most the sum. *)
Lemma last_le : forall n (z : nat -> T) P p, bsum (S n) (fun k => tconj (z k) * z k) = emb P -> tconj (z n) * z n = emb p -> le p P.
Proof.
  intros n z P p E E2. destruct (sum_pos n (fun k => tconj (z k) * z k) (fun k _ => sq_pos (z k))) as (q & Eq & Q).
  rewrite bs_S, Eq, E2, <- s_add in E. apply s_inj in E. subst P. pose proof (le_add _ _ _ _ _ _ _ _ _ OF f0 q p Q) as X. replace (fadd f0 p) with p in X by ring. exact X.
Qed.
Lemma sum_zero : forall n (z : nat -> T), bsum n (fun k => tconj (z k) * z k) = t0 -> forall k, k < n -> tconj (z k) * z k = t0.
Proof.
  induction n as [|n IH]; intros z H k Hk; [lia|]. destruct (sum_pos n (fun k => tconj (z k) * z k) (fun k _ => sq_pos (z k))) as (q & Eq & Q).
  destruct (sq_pos (z n)) as (p & Ep & P). rewrite bs_S, Eq, Ep, <- s_add, <- s_0 in H. apply s_inj in H.
  assert (p = f0 /\ q = f0) as (-> & ->).
  { destruct (le_cases _ _ _ _ _ _ _ _ _ OF f0 p P) as [L|<-].
    - exfalso. pose proof (le_add _ _ _ _ _ _ _ _ _ OF f0 q p Q) as X. rewrite H in X. replace (fadd f0 p) with p in X by ring. rewrite L in X. discriminate.
    - split; [reflexivity|]. rewrite <- H. ring. }
  rewrite s_0 in Ep, Eq. destruct (Nat.eq_dec k n) as [->|]; [exact Ep|]. apply IH; [exact Eq|lia].
Qed.

Lemma bessel : forall n vv u q, orthonormal n vv -> dot u u = emb q ->
  exists p, emb q = bsum n (fun k => tconj (dot (vv k) u) * dot (vv k) u) + emb p /\ le f0 p.
Proof.
  intros n vv u q ON Hq.
  assert (HC : exists w, forall z, dot z w = bsum n (fun k => dot (vv k) u * dot z (vv k))).
  { clear ON. induction n as [|n (w & IH)]; [exists (vscale t0 u); intros z; rewrite d_scale; cbn; ring|].
    exists (vadd w (vscale (dot (vv n) u) (vv n))). intros z. rewrite d_add, d_scale, IH, bs_S. ring. }
  destruct HC as (w & Hw). destruct (d_pos (vsub u w)) as (p & E & P). exists p. split; [|exact P]. rewrite <- E, <- Hq.
  pose proof (spans_norm n vv (fun k => dot (vv k) u) w ON Hw) as Ww.
  assert (Uw : dot u w = dot w w) by (rewrite Ww, Hw; apply bs_ext; intros k _; rewrite (d_conj (vv k) u); ring).
  assert (Wr : tconj (dot w w) = dot w w) by (rewrite <- d_conj; reflexivity).
  assert (Wu : dot w u = dot w w) by (rewrite (d_conj u w), Uw; exact Wr).
  rewrite d_sub. unfold GmSpec.vsub. rewrite !d_addl, !d_scalel, Uw, Wu, cj_opp, cj_1, <- Ww. ring.
Qed.

(** * The rotations *)
Lemma rot_above : forall n cs sn h k, n < k -> rotate_all n cs sn h k = h k.
Proof.
  induction n as [|n IH]; intros cs sn h k Hk; [reflexivity|]. cbn [GmModel.rotate_all]. unfold GmModel.apply_rotation, upd.
  destruct (Nat.eqb_spec k (S n)); [lia|]. destruct (Nat.eqb_spec k n); [lia|]. apply IH. lia.
Qed.
Lemma rot_ext : forall n N cs sn cs' sn' h h', n <= N -> (forall k, k < n -> cs k = cs' k /\ sn k = sn' k) -> (forall k, k <= N -> h k = h' k) ->
  forall k, k <= N -> rotate_all n cs sn h k = rotate_all n cs' sn' h' k.
Proof.
  induction n as [|n IH]; intros N cs sn cs' sn' h h' Hn Hc Hh k Hk; [apply Hh; exact Hk|]. cbn [GmModel.rotate_all]. unfold GmModel.apply_rotation, upd.
  destruct (Hc n (Nat.lt_succ_diag_r n)) as (-> & ->).
  rewrite !(IH N cs sn cs' sn' h h') by (auto; lia). reflexivity.
Qed.
Lemma rot_lin : forall n cs sn h1 h2 a k, rotate_all n cs sn (fun j => h1 j + a * h2 j) k = rotate_all n cs sn h1 k + a * rotate_all n cs sn h2 k.
Proof.
  induction n as [|n IH]; intros cs sn h1 h2 a k; [reflexivity|]. cbn [GmModel.rotate_all]. unfold GmModel.apply_rotation, upd. rewrite !IH.
  destruct (k =? S n); [ring|]. destruct (k =? n); ring.
Qed.
Lemma rot_sum : forall n cs sn m (y : nat -> T) (H : nat -> nat -> T) h k,
  rotate_all n cs sn (fun j => h j + bsum m (fun c => y c * H j c)) k = rotate_all n cs sn h k + bsum m (fun c => y c * rotate_all n cs sn (fun j => H j c) k).
Proof.
  intros n cs sn. induction m as [|m IH]; intros y H h k.
  - cbn [BigSum.bsum]. rewrite (rot_ext n (max n k) cs sn cs sn (fun j => h j + t0) h) by (auto; try lia; intros; ring). ring.
  - cbn [BigSum.bsum]. rewrite (rot_ext n (max n k) cs sn cs sn (fun j => h j + (bsum m (fun c => y c * H j c) + y m * H j m)) (fun j => (h j + bsum m (fun c => y c * H j c)) + y m * H j m)) by (auto; try lia; intros; ring).
    rewrite (rot_lin n cs sn (fun j => h j + bsum m (fun c => y c * H j c)) (fun j => H j m)). rewrite IH. ring.
Qed.
Definition unit_rot (c s : T) : Prop := isreal c /\ isreal s /\ c * c + s * s = t1.
Lemma rot_norm : forall n cs sn h, (forall k, k < n -> unit_rot (cs k) (sn k)) ->
  bsum (S n) (fun k => tconj (rotate_all n cs sn h k) * rotate_all n cs sn h k) = bsum (S n) (fun k => tconj (h k) * h k).
Proof.
  induction n as [|n IH]; intros cs sn h U; [reflexivity|]. cbn [GmModel.rotate_all]. rewrite bs_S, (bs_S n). rewrite (bs_S (S n) (fun k => tconj (h k) * h k)).
  rewrite <- (IH cs sn h) by (intros k Hk; apply U; lia). rewrite bs_S. set (h' := rotate_all n cs sn h).
  assert (E : h (S n) = h' (S n)) by (unfold h'; rewrite rot_above by lia; reflexivity). rewrite E.
  unfold GmModel.apply_rotation, upd.
  rewrite (bs_ext n _ (fun k => tconj (h' k) * h' k)) by (intros k Hk; destruct (Nat.eqb_spec k (S n)); [lia|]; destruct (Nat.eqb_spec k n); [lia|]; reflexivity).
  rewrite Nat.eqb_refl. destruct (Nat.eqb_spec n (S n)); [lia|]. rewrite Nat.eqb_refl.
  destruct (U n (Nat.lt_succ_diag_r n)) as (Rc & Rs & E1). pose proof (proj2 (real_iff _) Rc) as Cc. pose proof (proj2 (real_iff _) Rs) as Cs.
  rewrite !cj_add, !cj_mul, cj_opp, !Cc, !Cs.
  set (a := h' n). set (b := h' (S n)). set (c := cs n) in *. set (s := sn n) in *. set (a' := tconj a). set (b' := tconj b). clearbody a b c s a' b'.
  rewrite <- (TR.(Radd_assoc)). rewrite <- (TR.(Radd_assoc) (bsum n _)). f_equal.
  transitivity ((c * c + s * s) * (a' * a + b' * b)); [ring|]. rewrite E1. ring.
Qed.
Lemma rot_real : forall n cs sn h, (forall k, k < n -> unit_rot (cs k) (sn k)) -> (forall k, isreal (h k)) -> forall k, isreal (rotate_all n cs sn h k).
Proof.
  induction n as [|n IH]; intros cs sn h U R k; [apply R|]. cbn [GmModel.rotate_all]. unfold GmModel.apply_rotation, upd.
  assert (IH' : forall k, isreal (rotate_all n cs sn h k)) by (intros j; apply IH; [intros x Hx; apply U; lia|exact R]).
  destruct (U n (Nat.lt_succ_diag_r n)) as (Rc & Rs & E1). pose proof (proj2 (real_iff _) Rc) as Cc. pose proof (proj2 (real_iff _) Rs) as Cs. rewrite Cc, Cs.
  destruct (k =? S n); [|destruct (k =? n); [|apply IH']]; apply real_add; apply real_mul; try apply real_opp; auto.
Qed.
(** Rotations of rows below the last nonzero one change nothing. *)
Lemma rot_stable : forall n m cs sn h, m <= n -> (forall k, m <= k -> rotate_all m cs sn h k = t0) -> forall k, rotate_all n cs sn h k = rotate_all m cs sn h k.
Proof.
  induction n as [|n IH]; intros m cs sn h Hm Z k; [replace m with 0 by lia; reflexivity|]. destruct (Nat.eq_dec m (S n)) as [->|]; [reflexivity|].
  cbn [GmModel.rotate_all]. unfold GmModel.apply_rotation, upd. rewrite !(IH m cs sn h) by (auto; lia). rewrite (Z n), (Z (S n)) by lia.
  destruct (Nat.eqb_spec k (S n)) as [->|]; [rewrite (Z (S n)) by lia; ring|]. destruct (Nat.eqb_spec k n) as [->|]; [rewrite (Z n) by lia; ring|reflexivity].
Qed.

Lemma tdivo_ok : forall x y z, tdivo x y = Ok z -> y <> t0 /\ z = x * tinv y.
Proof. intros x y z H. unfold GmModel.tdivo in H. destruct (teqb y t0) eqn:E; [discriminate|]. injection H as <-. split; [|reflexivity]. intros ->. rewrite (proj2 (s_eqb t0 t0) eq_refl) in E. discriminate. Qed.
Lemma tdivo_total : forall x y, y <> t0 -> tdivo x y = Ok (x * tinv y).
Proof. intros x y H. unfold GmModel.tdivo. destruct (teqb y t0) eqn:E; [apply s_eqb in E; contradiction|reflexivity]. Qed.
Lemma emb_neq : forall x, emb x <> t0 -> x <> f0. Proof. intros x H ->. apply H. apply s_0. Qed.
Lemma emb_inv : forall x, x <> f0 -> emb (finv x) = tinv (emb x).
Proof.
  intros x H. assert (E : emb (finv x) * emb x = t1) by (rewrite <- s_mul, <- s_1; f_equal; field; exact H).
  assert (N : emb x <> t0) by (intros Z; apply H; apply s_inj; rewrite Z; symmetry; apply s_0).
  transitivity (emb (finv x) * emb x * tinv (emb x)); [field; exact N|]. rewrite E. ring.
Qed.
Lemma one_plus_sq : forall x, le f0 (fadd f1 (fmul x x)) /\ fadd f1 (fmul x x) <> f0.
Proof.
  intros x. assert (P1 : lt f0 f1).
  { destruct (le_cases _ _ _ _ _ _ _ _ _ OF f0 (fmul f1 f1) (sq_nonneg _ _ _ _ _ _ _ _ _ OF f1)) as [L|E]; [replace (fmul f1 f1) with f1 in L by ring; exact L|].
    exfalso. apply (F_1_neq_0 FT). rewrite E. ring. }
  assert (L : lt f0 (fadd f1 (fmul x x))).
  { pose proof (le_add _ _ _ _ _ _ _ _ _ OF f0 (fmul x x) f1 (sq_nonneg _ _ _ _ _ _ _ _ _ OF x)) as H.
    apply (lt_le_trans _ _ _ _ _ _ _ _ _ OF f0 f1); [exact P1|]. replace (fadd f0 f1) with f1 in H by ring. replace (fadd f1 (fmul x x)) with (fadd (fmul x x) f1) by ring. exact H. }
  split; [apply (lt_le _ _ _ _ _ _ _ _ _ OF); exact L|apply (lt_neq _ _ _ _ _ _ _ _ _ OF); exact L].
Qed.
Lemma generate_ok : forall dx dy c s, generate_rotation (emb dx) (emb dy) = Ok (c, s) ->
  unit_rot c s /\ - s * emb dx + c * emb dy = t0 /\ (dy = f0 -> c = t1 /\ s = t0).
Proof.
  intros dx dy c s H. unfold GmModel.generate_rotation in H. destruct (teqb (emb dy) t0) eqn:E0.
  - injection H as <- <-. apply s_eqb in E0. rewrite E0. split; [|split; [ring|auto]]. split; [exists f1; symmetry; apply s_1|]. split; [apply real_0|ring].
  - assert (Ny : dy <> f0) by (intros ->; rewrite s_0 in E0; rewrite (proj2 (s_eqb t0 t0) eq_refl) in E0; discriminate).
    assert (key : forall x y (Nx : x <> f0) q z, tsqrt (t1 + (emb y * tinv (emb x)) * (emb y * tinv (emb x))) = Ok q -> tdivo t1 q = Ok z ->
      unit_rot z (emb y * tinv (emb x) * z) /\ emb y * z = emb y * tinv (emb x) * z * emb x).
    { intros x y Nx q z Hq Hz. apply tdivo_ok in Hz. destruct Hz as (Nq & ->). rewrite <- emb_inv in Hq by exact Nx. rewrite <- emb_inv by exact Nx.
      rewrite <- s_1, <- !s_mul, <- s_add in Hq. set (t := fmul y (finv x)) in *. destruct (one_plus_sq t) as (P & _).
      destruct (sc_sqrt _ _ _ _ _ _ _ _ _ _ _ _ _ _ _ _ _ _ SC _ _ P Hq) as (r & -> & Er & _). pose proof (emb_neq _ Nq) as Nr.
      assert (Nx' : emb x <> t0) by (intros Z; apply Nx; apply s_inj; rewrite Z; symmetry; apply s_0).
      rewrite <- (emb_inv r) by exact Nr. rewrite <- s_1, <- !s_mul. fold t. split.
      - split; [eexists; reflexivity|]. split; [eexists; reflexivity|]. rewrite <- !s_mul, <- s_add, <- s_1. f_equal.
        transitivity (fmul (fadd f1 (fmul t t)) (fmul (finv r) (finv r))); [ring|]. rewrite <- Er. field. exact Nr.
      - f_equal. unfold t. field. split; assumption. }
    destruct (tabs (emb dy)) as [ay| |] eqn:Ey; cbn [obind] in H; try discriminate. destruct (tabs (emb dx)) as [ax| |] eqn:Ex; cbn [obind] in H; try discriminate.
    destruct (fltb ax ay).
    + destruct (tdivo (emb dx) (emb dy)) as [t| |] eqn:Et; cbn [obind] in H; try discriminate. apply tdivo_ok in Et. destruct Et as (_ & ->).
      destruct (tsqrt _) as [q| |] eqn:Eq; cbn [obind] in H; try discriminate. destruct (tdivo t1 q) as [z| |] eqn:Ez; cbn [obind] in H; try discriminate. injection H as <- <-.
      destruct (key dy dx Ny q z Eq Ez) as ((R1 & R2 & U) & K). split; [|split].
      * split; [exact R2|]. split; [exact R1|]. rewrite <- U. ring.
      * transitivity (- (emb dx * z) + emb dx * tinv (emb dy) * z * emb dy); [ring|]. rewrite <- K. ring.
      * intros ->. contradiction Ny. reflexivity.
    + destruct (tdivo (emb dy) (emb dx)) as [t| |] eqn:Et; cbn [obind] in H; try discriminate. apply tdivo_ok in Et. destruct Et as (Nx & ->). apply emb_neq in Nx.
      destruct (tsqrt _) as [q| |] eqn:Eq; cbn [obind] in H; try discriminate. destruct (tdivo t1 q) as [z| |] eqn:Ez; cbn [obind] in H; try discriminate. injection H as <- <-.
      destruct (key dx dy Nx q z Eq Ez) as (U & K). split; [exact U|]. split; [|intros ->; contradiction Ny; reflexivity].
      transitivity (emb dy * z - emb dy * tinv (emb dx) * z * emb dx); [ring|]. rewrite K. ring.
Qed.
(** The rotated element squared is the sum of the two squares. *)
Lemma unit_sq : forall c s a b, c * c + s * s = t1 -> - s * a + c * b = t0 -> (c * a + s * b) * (c * a + s * b) = a * a + b * b.
Proof.
  intros c s a b U Z. transitivity ((c * c + s * s) * (a * a + b * b) - (- s * a + c * b) * (- s * a + c * b)); [ring|]. rewrite U, Z. ring.
Qed.

(** * The back substitution *)
Lemma back_above : forall n h y z k, backsolve n h y = Ok z -> n <= k -> z k = y k.
Proof.
  induction n as [|n IH]; intros h y z k H Hk; cbn [GmModel.backsolve] in H; [injection H as <-; reflexivity|].
  destruct (tdivo _ _) as [q| |]; cbn [obind] in H; try discriminate. rewrite (IH _ _ _ k H) by lia. destruct (Nat.eqb_spec k n); [lia|]. destruct (Nat.ltb_spec k n); [lia|reflexivity].
Qed.
Lemma back_ok : forall n h y z, backsolve n h y = Ok z -> forall k, k < n -> bsum n (fun c => (if k <=? c then h k c else t0) * z c) = y k.
Proof.
  induction n as [|n IH]; intros h y z H k Hk; [lia|]. cbn [GmModel.backsolve] in H. destruct (tdivo _ _) as [q| |] eqn:Eq; cbn [obind] in H; try discriminate.
  apply tdivo_ok in Eq. destruct Eq as (Nz & ->). pose proof (back_above _ _ _ _ n H ltac:(lia)) as Ez. cbn beta in Ez. rewrite Nat.eqb_refl in Ez. rewrite bs_S, Ez.
  destruct (Nat.leb_spec k n); [|lia]. destruct (Nat.eq_dec k n) as [->|].
  - rewrite bs_zero by (intros c Hc; destruct (Nat.leb_spec n c); [lia|]; ring). field. exact Nz.
  - rewrite (IH _ _ _ H k) by lia. cbn beta. destruct (Nat.eqb_spec k n); [lia|]. destruct (Nat.ltb_spec k n); [|lia]. ring.
Qed.
Lemma back_total : forall n h y, (forall i, i < n -> h i i <> t0) -> exists z, backsolve n h y = Ok z.
Proof.
  induction n as [|n IH]; intros h y D; cbn [GmModel.backsolve]; [eexists; reflexivity|]. rewrite tdivo_total by (apply D; lia). cbn [obind]. apply IH. intros i Hi. apply D. lia.
Qed.
Lemma back_diag : forall n h y z, backsolve n h y = Ok z -> forall i, i < n -> h i i <> t0.
Proof.
  induction n as [|n IH]; intros h y z H i Hi; [lia|]. cbn [GmModel.backsolve] in H. destruct (tdivo _ _) as [q| |] eqn:Eq; cbn [obind] in H; try discriminate.
  apply tdivo_ok in Eq. destruct (Nat.eq_dec i n) as [->|]; [tauto|]. eapply IH; [exact H|lia].
Qed.
Lemma addup_ok : forall n y v vv x, (forall k, k < n -> v k = Some (vv k)) -> exists x', addup n y v x = Ok x' /\ forall w, dot w x' = dot w x + bsum n (fun k => y k * dot w (vv k)).
Proof.
  induction n as [|n IH]; intros y v vv x H; cbn [GmModel.addup].
  - exists x. split; [reflexivity|]. intros w. cbn. ring.
  - destruct (IH y v vv x) as (x' & -> & E); [intros k Hk; apply H; lia|]. cbn [obind]. rewrite H by lia. eexists. split; [reflexivity|]. intros w. rewrite d_add, d_scale, E, bs_S. ring.
Qed.

(** * The Arnoldi relation *)
Lemma arnoldi_ok : forall n v vv w h, (forall k, k < n -> v k = Some (vv k)) -> orthonormal n vv ->
  exists w' h', arnoldi n v w h = Ok (w', h') /\ (forall k, k < n -> h' k = dot w (vv k)) /\ (forall k, n <= k -> h' k = h k) /\
    forall u, dot u w' = dot u w - bsum n (fun k => dot w (vv k) * dot u (vv k)).
Proof.
  induction n as [|n IH]; intros v vv w h Hv ON; cbn [GmModel.arnoldi].
  - exists w, h. split; [reflexivity|]. split; [intros; lia|]. split; [reflexivity|]. intros u. cbn. ring.
  - destruct (IH v vv w h) as (w' & h' & -> & H1 & H2 & H3); [intros k Hk; apply Hv; lia|intros j k Hj Hk; apply ON; lia|]. cbn [obind]. rewrite Hv by lia.
    assert (D : dot w' (vv n) = dot w (vv n)).
    { rewrite (d_conj (vv n) w'), H3, bs_zero; [|intros k Hk; rewrite ON by lia; destruct (Nat.eqb_spec n k); [lia|ring]].
      replace (dot (vv n) w - t0) with (dot (vv n) w) by ring. symmetry. apply d_conj. }
    rewrite D. eexists _, _. split; [reflexivity|]. unfold upd. split; [|split].
    + intros k Hk. destruct (Nat.eqb_spec k n) as [->|]; [reflexivity|]. apply H1. lia.
    + intros k Hk. destruct (Nat.eqb_spec k n); [lia|]. apply H2. lia.
    + intros u. rewrite d_add, d_scale, H3, bs_S. ring.
Qed.
Lemma A_comb : forall n x x' y vv, (forall w, dot w x' = dot w x + bsum n (fun c => y c * dot w (vv c))) ->
  forall u, dot u (A x') = dot u (A x) + bsum n (fun c => y c * dot u (A (vv c))).
Proof.
  induction n as [|n IH]; intros x x' y vv H u.
  - cbn. rewrite (li_ext _ _ _ _ LI x' x (fun w => eq_trans (H w) ltac:(cbn; ring)) u). ring.
  - set (x'' := vadd x' (vscale (- y n) (vv n))).
    assert (E : veq x' (vadd x'' (vscale (y n) (vv n)))) by (intros w; unfold x''; rewrite !d_add, !d_scale; ring).
    rewrite (li_ext _ _ _ _ LI _ _ E u), a_add, a_scale. rewrite (IH x x'' y vv); [rewrite bs_S; ring|].
    intros w. unfold x''. rewrite d_add, d_scale, H, bs_S. ring.
Qed.
Lemma spans_ext : forall n m vv y u, n <= m -> (forall k, n <= k -> k < m -> y k = t0) -> spans n vv y u -> spans m vv y u.
Proof. intros n m vv y u Hn Z S w. rewrite S. symmetry. apply bs_more; [exact Hn|]. intros k H1 H2. rewrite Z by assumption. ring. Qed.
Lemma spans_cut : forall n m vv y u, n <= m -> (forall k, n <= k -> k < m -> y k = t0) -> spans m vv y u -> spans n vv y u.
Proof. intros n m vv y u Hn Z S w. rewrite S. apply bs_more; [exact Hn|]. intros k H1 H2. rewrite Z by assumption. ring. Qed.

Notation gstate := (@gstate T V).
Notation update := (update t0 tmul tsub tinv teqb vadd vscale).
Definition e0 (beta : F) (k : nat) : T := if k =? 0 then emb beta else t0.
(** n columns of H have been made and v_0, ..., v_(m-1) are set: m = n+1, or m = n after a new vector of norm zero. *)
Record core (n m : nat) (beta : F) (r : V) (vv : nat -> V) (Ho : nat -> nat -> T) (st : gstate) : Prop := {
  c_m : 0 < m /\ n <= m /\ m <= S n;
  c_v : forall k, k < m -> gv st k = Some (vv k);
  c_on : orthonormal m vv;
  c_r : forall u, dot u r = emb beta * dot u (vv 0);
  c_A : forall c, c < n -> spans (S (S c)) vv (fun k => Ho k c) (A (vv c));
  c_z : forall c k, c < n -> S c < k -> Ho k c = t0;
  c_zm : forall c k, c < n -> m <= k -> Ho k c = t0;
  c_real : forall c k, c < n -> isreal (Ho k c);
  c_rot : forall k, k < n -> unit_rot (gcs st k) (gsn st k);
  c_H : forall c k, c < n -> k <= S c -> gH st k c = rotate_all n (gcs st) (gsn st) (fun j => Ho j c) k;
  c_tri : forall c k, c < n -> c < k -> rotate_all n (gcs st) (gsn st) (fun j => Ho j c) k = t0;
  c_s : forall k, gs st k = rotate_all n (gcs st) (gsn st) (e0 beta) k;
  c_diag : forall c, S c < m -> gH st c c <> t0 }.
Lemma e0_real : forall beta k, isreal (e0 beta k). Proof. intros beta k. unfold e0. destruct (k =? 0); [eexists; reflexivity|apply real_0]. Qed.
Lemma core_s_real : forall n m beta r vv Ho st k, core n m beta r vv Ho st -> isreal (gs st k).
Proof. intros n m beta r vv Ho st k C. rewrite (c_s _ _ _ _ _ _ _ C). apply rot_real; [apply (c_rot _ _ _ _ _ _ _ C)|apply e0_real]. Qed.
Lemma core_s_norm : forall n m beta r vv Ho st, core n m beta r vv Ho st -> bsum (S n) (fun k => tconj (gs st k) * gs st k) = emb (fmul beta beta).
Proof.
  intros n m beta r vv Ho st C. rewrite (bs_ext (S n) _ (fun k => tconj (rotate_all n (gcs st) (gsn st) (e0 beta) k) * rotate_all n (gcs st) (gsn st) (e0 beta) k)) by (intros k _; rewrite (c_s _ _ _ _ _ _ _ C); reflexivity).
  rewrite rot_norm by apply (c_rot _ _ _ _ _ _ _ C). rewrite (bs_more 1 (S n)) by first [lia | intros k Hk _; unfold e0; destruct (Nat.eqb_spec k 0); [lia|]; rewrite cj_0; ring].
  cbn. unfold e0. cbn. rewrite cj_emb, s_mul. ring.
Qed.
(** The residual of x + sum of y_c v_c, by the rotated matrix. *)
Lemma res_id : forall n m beta b x vv Ho st x' y, core n m beta (vsub b (A x)) vv Ho st ->
  (forall w, dot w x' = dot w x + bsum n (fun c => y c * dot w (vv c))) ->
  dot (vsub b (A x')) (vsub b (A x')) =
  bsum (S n) (fun k => tconj (gs st k - bsum n (fun c => y c * rotate_all n (gcs st) (gsn st) (fun j => Ho j c) k)) *
                       (gs st k - bsum n (fun c => y c * rotate_all n (gcs st) (gsn st) (fun j => Ho j c) k))).
Proof.
  intros n m beta b x vv Ho st x' y C Hx. set (z := fun k => e0 beta k + bsum n (fun c => (- y c) * Ho k c)).
  destruct (c_m _ _ _ _ _ _ _ C) as (M0 & M1 & M2).
  assert (ZM : forall k, m <= k -> k < S n -> z k = t0).
  { intros k H1 H2. unfold z, e0. destruct (Nat.eqb_spec k 0); [lia|]. rewrite bs_zero; [ring|]. intros c Hc. rewrite (c_zm _ _ _ _ _ _ _ C c k) by lia. ring. }
  assert (S1 : spans (S n) vv z (vsub b (A x'))).
  { intros u. rewrite d_sub. rewrite (A_comb n x x' y vv Hx u). pose proof (c_r _ _ _ _ _ _ _ C u) as R. rewrite d_sub in R.
    unfold z. rewrite (bs_ext (S n) _ (fun k => e0 beta k * dot u (vv k) + bsum n (fun c => (- y c) * (Ho k c * dot u (vv k))))).
    2:{ intros k _. transitivity (e0 beta k * dot u (vv k) + bsum n (fun c => - y c * Ho k c) * dot u (vv k)); [ring|]. rewrite <- bs_mulr. f_equal. apply bs_ext. intros c _. ring. }
    rewrite bs_add, bs_swap. rewrite (bs_more 1 (S n) (fun k => e0 beta k * dot u (vv k))) by first [lia | intros k Hk _; unfold e0; destruct (Nat.eqb_spec k 0); [lia|]; ring].
    cbn [BigSum.bsum]. unfold e0 at 1. cbn [Nat.eqb].
    rewrite (bs_ext n (fun c => y c * dot u (A (vv c))) (fun c => (- t1) * bsum (S n) (fun k => - y c * (Ho k c * dot u (vv k))))).
    2:{ intros c Hc. rewrite bs_mul. rewrite (c_A _ _ _ _ _ _ _ C c Hc u). rewrite (bs_more (S (S c)) (S n)); [ring|lia|].
        intros k H1 H2. rewrite (c_z _ _ _ _ _ _ _ C c k) by lia. ring. }
    rewrite bs_mul. cbn [BigSum.bsum] in *.
    transitivity ((dot u b - dot u (A x)) + bsum n (fun j => bsum n (fun i => - y j * (Ho i j * dot u (vv i))) + - y j * (Ho n j * dot u (vv n)))); [ring|]. rewrite R. ring. }
  rewrite (spans_norm m vv z _ (c_on _ _ _ _ _ _ _ C) (spans_cut m (S n) vv z _ M2 ZM S1)).
  rewrite <- (bs_more m (S n) (fun k => tconj (z k) * z k)) by first [exact M2 | intros k H1 H2; rewrite ZM by assumption; ring].
  rewrite <- (rot_norm n (gcs st) (gsn st) z) by apply (c_rot _ _ _ _ _ _ _ C).
  apply bs_ext. intros k _. unfold z. rewrite rot_sum. rewrite <- (c_s _ _ _ _ _ _ _ C).
  rewrite (bs_ext n (fun c => - y c * rotate_all n (gcs st) (gsn st) (fun j => Ho j c) k) (fun c => (- t1) * (y c * rotate_all n (gcs st) (gsn st) (fun j => Ho j c) k))) by (intros; ring).
  rewrite bs_mul. replace (gs st k + - t1 * bsum n (fun i => y i * rotate_all n (gcs st) (gsn st) (fun j => Ho j i) k)) with (gs st k - bsum n (fun i => y i * rotate_all n (gcs st) (gsn st) (fun j => Ho j i) k)) by ring.
  reflexivity.
Qed.
Lemma update_res : forall n m beta b x vv Ho st x', core n m beta (vsub b (A x)) vv Ho st -> n <= m -> update x n (gH st) (gs st) (gv st) = Ok x' ->
  dot (vsub b (A x')) (vsub b (A x')) = tconj (gs st n) * gs st n.
Proof.
  intros n m beta b x vv Ho st x' C Hn H. unfold GmModel.update in H. destruct (backsolve n (gH st) (gs st)) as [y| |] eqn:Ey; cbn [obind] in H; try discriminate.
  destruct (addup_ok n y (gv st) vv x) as (x1 & E1 & Hx); [intros k Hk; apply (c_v _ _ _ _ _ _ _ C); lia|]. rewrite E1 in H. injection H as <-.
  rewrite (res_id n m beta b x vv Ho st x1 y C Hx). rewrite bs_S.
  rewrite bs_zero.
  2:{ intros k Hk. replace (gs st k - _) with t0; [ring|]. rewrite <- (back_ok n _ _ _ Ey k Hk).
      rewrite (bs_ext n (fun c => y c * _) (fun c => (if k <=? c then gH st k c else t0) * y c)); [ring|].
      intros c Hc. destruct (Nat.leb_spec k c); [rewrite (c_H _ _ _ _ _ _ _ C c k) by lia; ring|rewrite (c_tri _ _ _ _ _ _ _ C c k) by lia; ring]. }
  rewrite (bs_zero n) by (intros c Hc; rewrite (c_tri _ _ _ _ _ _ _ C c n) by lia; ring). replace (gs st n - t0) with (gs st n) by ring. ring.
Qed.
Lemma update_min : forall n m beta b x vv Ho st x' y p, core n m beta (vsub b (A x)) vv Ho st ->
  (forall w, dot w x' = dot w x + bsum n (fun c => y c * dot w (vv c))) -> residual2 A b x' p -> exists q, tconj (gs st n) * gs st n = emb q /\ le q p.
Proof.
  intros n m beta b x vv Ho st x' y p C Hx R. unfold GmSpec.residual2 in R. rewrite (res_id n m beta b x vv Ho st x' y C Hx) in R.
  destruct (sq_pos (gs st n)) as (q & Eq & _). exists q. split; [exact Eq|]. refine (last_le n _ p q R _).
  rewrite (bs_zero n) by (intros c Hc; rewrite (c_tri _ _ _ _ _ _ _ C c n) by lia; ring). replace (gs st n - t0) with (gs st n) by ring. exact Eq.
Qed.
Lemma core_le : forall n m beta r vv Ho st, core n m beta r vv Ho st -> exists p, tconj (gs st n) * gs st n = emb p /\ le p (fmul beta beta).
Proof. intros n m beta r vv Ho st C. destruct (sq_pos (gs st n)) as (p & E & _). exists p. split; [exact E|]. exact (last_le n (gs st) _ p (core_s_norm _ _ _ _ _ _ _ C) E). Qed.

(** * One step *)
Lemma arn : forall i beta r vv Ho st h0, core i (S i) beta r vv Ho st ->
  exists w h, arnoldi (S i) (gv st) (A (vv i)) h0 = Ok (w, h) /\ (forall k, k <= i -> isreal (h k) /\ dot (vv k) w = t0) /\
    forall u, dot u (A (vv i)) = dot u w + bsum (S i) (fun k => h k * dot u (vv k)).
Proof.
  intros i beta r vv Ho st h0 C. destruct (arnoldi_ok (S i) (gv st) vv (A (vv i)) h0 (c_v _ _ _ _ _ _ _ C) (c_on _ _ _ _ _ _ _ C)) as (w & h & E & H1 & _ & H3).
  exists w, h. split; [exact E|]. pose proof (c_on _ _ _ _ _ _ _ C) as ON.
  assert (R : forall k, k <= i -> isreal (dot (A (vv i)) (vv k))).
  { intros k Hk. destruct CASE as [CI|SA]; [apply real_iff; apply CI|]. destruct (Nat.eq_dec k i) as [->|].
    - apply real_iff. rewrite <- d_conj. apply SA.
    - rewrite <- SA. rewrite (spans_dot (S i) vv (fun j => Ho j k) (A (vv k)) i ON); [apply (c_real _ _ _ _ _ _ _ C); lia| |lia].
      apply (spans_ext (S (S k)) (S i)); [lia| |apply (c_A _ _ _ _ _ _ _ C); lia]. intros j Hj _. apply (c_z _ _ _ _ _ _ _ C); lia. }
  split.
  - intros k Hk. rewrite H1 by lia. split; [apply R; exact Hk|]. rewrite H3.
    rewrite (bs_ext (S i) _ (fun j => dot (A (vv i)) (vv j) * (if k =? j then t1 else t0))) by (intros j Hj; rewrite ON by lia; reflexivity).
    rewrite (bs_pick (S i) k (fun j => dot (A (vv i)) (vv j))) by lia. rewrite (d_conj (A (vv i)) (vv k)), (proj2 (real_iff _) (R k Hk)). ring.
  - intros u. rewrite H3. rewrite (bs_ext (S i) (fun k => h k * dot u (vv k)) (fun k => dot (A (vv i)) (vv k) * dot u (vv k))) by (intros k Hk; rewrite H1 by lia; reflexivity). ring.
Qed.
Lemma step_core : forall i beta r vv Ho st h0 w h nw v c s, core i (S i) beta r vv Ho st ->
  arnoldi (S i) (gv st) (A (vv i)) h0 = Ok (w, h) -> vnorm w = Ok nw ->
  (if teqb (emb nw) t0 then Ok (gv st) else let! q := tdivo t1 (emb nw) in Ok (upd (gv st) (S i) (Some (vscale q w)))) = Ok v ->
  forall h1, h1 = rotate_all i (gcs st) (gsn st) (upd h (S i) (emb nw)) -> generate_rotation (h1 i) (h1 (S i)) = Ok (c, s) ->
  exists vv' Ho' m', (m' = S (S i) /\ nw <> f0 \/ m' = S i /\ nw = f0 /\ - s * gs st i + c * gs st (S i) = t0) /\
    core (S i) m' beta r vv' Ho' (GS v (fun k col => if col =? i then upd (upd h1 i (tconj c * h1 i + tconj s * h1 (S i))) (S i) (- s * h1 i + c * h1 (S i)) k else gH st k col)
       (upd (gcs st) i c) (upd (gsn st) i s) (upd (upd (gs st) i (tconj c * gs st i + tconj s * gs st (S i))) (S i) (- s * gs st i + c * gs st (S i)))).
Proof.
  intros i beta r vv Ho st h0 w h nw v c s C EA EN EV h1 Eh1 EG.
  destruct (arn i beta r vv Ho st h0 C) as (w_ & h_ & E_ & HR & HA). rewrite EA in E_. injection E_ as <- <-.
  destruct (vnorm_ok _ _ EN) as (Ww & Pw). pose proof (c_on _ _ _ _ _ _ _ C) as ON.
  set (col := fun k => if k <=? i then h k else if k =? S i then emb nw else t0).
  assert (Rcol : forall k, isreal (col k)).
  { intros k. unfold col. destruct (Nat.leb_spec k i); [apply HR; assumption|]. destruct (k =? S i); [eexists; reflexivity|apply real_0]. }
  assert (E1 : forall k, k <= S i -> h1 k = rotate_all i (gcs st) (gsn st) col k).
  { intros k Hk. rewrite Eh1. apply (rot_ext i (S i)); [lia|auto| |exact Hk]. intros j Hj. unfold upd, col. destruct (Nat.eqb_spec j (S i)) as [->|]; [destruct (Nat.leb_spec (S i) i); [lia|reflexivity]|]. destruct (Nat.leb_spec j i); [reflexivity|lia]. }
  assert (EN1 : h1 (S i) = emb nw) by (rewrite E1, rot_above by lia; unfold col; destruct (Nat.leb_spec (S i) i); [lia|]; rewrite Nat.eqb_refl; reflexivity).
  assert (Rd : isreal (h1 i)) by (rewrite E1 by lia; apply rot_real; [apply (c_rot _ _ _ _ _ _ _ C)|exact Rcol]). destruct Rd as (dx & Edx).
  pose proof EG as EG'. rewrite Edx, EN1 in EG'. destruct (generate_ok dx nw c s EG') as (U & Z & D0).
  set (st' := GS _ _ _ _ _). set (Ho' := fun k j => if j =? i then col k else Ho k j).
  set (vv' := fun k => if k =? S i then (if teqb (emb nw) t0 then vv 0 else vscale (tinv (emb nw)) w) else vv k).
  assert (VV : forall k, k <= i -> vv' k = vv k) by (intros k Hk; unfold vv'; destruct (Nat.eqb_spec k (S i)); [lia|reflexivity]).
  assert (ROT : forall h k, rotate_all (S i) (gcs st') (gsn st') h k =
     (if k =? S i then - s * rotate_all i (gcs st) (gsn st) h i + c * rotate_all i (gcs st) (gsn st) h (S i)
      else if k =? i then tconj c * rotate_all i (gcs st) (gsn st) h i + tconj s * rotate_all i (gcs st) (gsn st) h (S i) else rotate_all i (gcs st) (gsn st) h k)).
  { intros hh k. cbn [GmModel.rotate_all]. unfold GmModel.apply_rotation, upd. unfold st'; cbn [gcs gsn].
    assert (Q : forall k, rotate_all i (upd (gcs st) i c) (upd (gsn st) i s) hh k = rotate_all i (gcs st) (gsn st) hh k).
    { intros j. apply (rot_ext i (max i j)); [lia| |auto|lia]. intros a Ha. unfold upd. destruct (Nat.eqb_spec a i); [lia|auto]. }
    rewrite !Q. unfold upd. rewrite !Nat.eqb_refl. reflexivity. }
  assert (OLD : forall j k, j < i -> rotate_all (S i) (gcs st') (gsn st') (fun a => Ho a j) k = rotate_all i (gcs st) (gsn st) (fun a => Ho a j) k).
  { intros j k Hj. rewrite ROT. rewrite (c_tri _ _ _ _ _ _ _ C j i), (c_tri _ _ _ _ _ _ _ C j (S i)) by lia.
    destruct (Nat.eqb_spec k (S i)) as [->|]; [rewrite (c_tri _ _ _ _ _ _ _ C j (S i)) by lia; ring|]. destruct (Nat.eqb_spec k i) as [->|]; [rewrite (c_tri _ _ _ _ _ _ _ C j i) by lia; ring|reflexivity]. }
  assert (Nw : nw <> f0 -> emb nw <> t0) by (intros H E; apply H; apply s_inj; rewrite E; symmetry; apply s_0).
  assert (mm : exists m', (m' = S (S i) /\ nw <> f0 \/ m' = S i /\ nw = f0) /\ orthonormal m' vv' /\ (forall k, k < m' -> v k = Some (vv' k))
     /\ (forall u, dot u w = emb nw * dot u (vv' (S i))) /\ (S i < m' -> tconj c * h1 i + tconj s * h1 (S i) <> t0)).
  { destruct (teqb (emb nw) t0) eqn:T0.
    - apply s_eqb in T0. exists (S i). split; [right; split; [reflexivity|]; apply s_inj; rewrite T0; symmetry; apply s_0|]. split; [intros j k Hj Hk; rewrite !VV by lia; apply ON; assumption|].
      split; [injection EV as <-; intros k Hk; rewrite VV by lia; apply (c_v _ _ _ _ _ _ _ C); exact Hk|]. split; [|lia].
      intros u. rewrite T0. rewrite (d_def w); [ring|]. rewrite Ww, s_mul, T0. ring.
    - assert (Ne : emb nw <> t0) by (intros E; rewrite E, (proj2 (s_eqb t0 t0) eq_refl) in T0; discriminate). rewrite (tdivo_total t1 _ Ne) in EV. cbn [obind] in EV. injection EV as <-.
      assert (VS : vv' (S i) = vscale (tinv (emb nw)) w) by (unfold vv'; rewrite Nat.eqb_refl; reflexivity).
      pose proof (emb_neq _ Ne) as Nf. assert (Cq : tconj (tinv (emb nw)) = tinv (emb nw)) by (rewrite <- emb_inv by exact Nf; apply cj_emb).
      assert (O1 : forall k, k <= i -> dot (vv k) (vscale (tinv (emb nw)) w) = t0) by (intros k Hk; rewrite d_scale, (proj2 (HR k Hk)); ring).
      exists (S (S i)). split; [left; split; [reflexivity|exact Nf]|]. split; [|split; [|split]].
      + intros j k Hj Hk. destruct (Nat.eq_dec j (S i)) as [->|], (Nat.eq_dec k (S i)) as [->|].
        * rewrite VS, d_scale, d_scalel, Cq, Ww, s_mul, Nat.eqb_refl. field. exact Ne.
        * rewrite VS, (VV k), (d_conj (vv k)), O1, cj_0 by lia. destruct (Nat.eqb_spec (S i) k); [lia|reflexivity].
        * rewrite VS, (VV j), O1 by lia. destruct (Nat.eqb_spec j (S i)); [lia|reflexivity].
        * rewrite !VV by lia. apply ON; lia.
      + intros k Hk. unfold upd. destruct (Nat.eqb_spec k (S i)) as [->|]; [rewrite VS; f_equal; f_equal; ring|]. rewrite VV by lia. apply (c_v _ _ _ _ _ _ _ C). lia.
      + intros u. rewrite VS, d_scale. field. exact Ne.
      + intros _ Q. destruct U as (Rc & Rs & U). rewrite (proj2 (real_iff _) Rc), (proj2 (real_iff _) Rs), Edx, EN1 in Q. pose proof (unit_sq c s (emb dx) (emb nw) U Z) as X. rewrite Q in X.
        rewrite <- !s_mul, <- s_add in X. replace (t0 * t0) with (emb f0) in X by (rewrite s_0; ring). apply s_inj in X.
        pose proof (sq_nonneg _ _ _ _ _ _ _ _ _ OF dx) as X1.
        pose proof (le_add _ _ _ _ _ _ _ _ _ OF _ _ (fmul nw nw) X1) as X2. rewrite <- X in X2. replace (fadd f0 (fmul nw nw)) with (fmul nw nw) in X2 by ring.
        destruct (le_cases _ _ _ _ _ _ _ _ _ OF f0 nw Pw) as [L|L]; [|symmetry in L; contradiction]. pose proof (of_mul _ _ _ _ _ _ _ _ _ OF _ _ L L) as L2. rewrite L2 in X2. discriminate. }
  destruct mm as (m' & Hm & ON' & HV' & HW & HD). exists vv', Ho', m'. split.
  { destruct Hm as [Hm|(-> & ->)]; [left; exact Hm|right]. split; [reflexivity|]. split; [reflexivity|]. destruct (D0 eq_refl) as (-> & ->).
    rewrite (c_s _ _ _ _ _ _ _ C (S i)), rot_above by lia. unfold e0. cbn. ring. }
  constructor.
  - destruct Hm as [(-> & _)|(-> & _)]; lia.
  - exact HV'.
  - exact ON'.
  - intros u. rewrite VV by lia. apply (c_r _ _ _ _ _ _ _ C).
  - intros j Hj. destruct (Nat.eq_dec j i) as [->|].
    + intros u. rewrite (VV i) by lia. rewrite HA, HW, (bs_S (S i)). assert (HS : Ho' (S i) i = emb nw) by (unfold Ho', col; rewrite !Nat.eqb_refl; destruct (Nat.leb_spec (S i) i); [lia|reflexivity]). rewrite HS.
      rewrite (bs_ext (S i) (fun k => Ho' k i * dot u (vv' k)) (fun k => h k * dot u (vv k))); [ring|]. intros k Hk. unfold Ho'. rewrite Nat.eqb_refl. unfold col. destruct (Nat.leb_spec k i); [|lia]. rewrite VV by lia. reflexivity.
    + intros u. rewrite (VV j) by lia. rewrite (c_A _ _ _ _ _ _ _ C j ltac:(lia) u). apply bs_ext. intros k Hk. unfold Ho'. destruct (Nat.eqb_spec j i); [lia|]. rewrite VV by lia. reflexivity.
  - intros j k Hj Hk. unfold Ho'. destruct (Nat.eqb_spec j i) as [->|]; [|apply (c_z _ _ _ _ _ _ _ C); lia]. unfold col. destruct (Nat.leb_spec k i); [lia|]. destruct (Nat.eqb_spec k (S i)); [lia|reflexivity].
  - intros j k Hj Hk. unfold Ho'. destruct (Nat.eqb_spec j i) as [->|].
    + unfold col. destruct (Nat.leb_spec k i); [destruct Hm as [(-> & _)|(-> & _)]; lia|]. destruct (Nat.eqb_spec k (S i)) as [->|]; [|reflexivity]. destruct Hm as [(-> & _)|(_ & ->)]; [lia|apply s_0].
    + apply (c_z _ _ _ _ _ _ _ C); [lia|]. destruct Hm as [(-> & _)|(-> & _)]; lia.
  - intros j k Hj. unfold Ho'. destruct (Nat.eqb_spec j i) as [->|]; [apply Rcol|]. apply (c_real _ _ _ _ _ _ _ C). lia.
  - intros k Hk. unfold st'; cbn [gcs gsn]. unfold upd. destruct (Nat.eqb_spec k i) as [->|]; [exact U|]. apply (c_rot _ _ _ _ _ _ _ C). lia.
  - intros j k Hj Hk. unfold Ho'. unfold st' at 1; cbn [gH]. destruct (Nat.eqb_spec j i) as [->|].
    + change (fun j : nat => col j) with col. rewrite ROT. rewrite <- (E1 i), <- (E1 (S i)) by lia. unfold upd. destruct (Nat.eqb_spec k (S i)); [reflexivity|]. destruct (Nat.eqb_spec k i); [reflexivity|]. apply E1. lia.
    + rewrite OLD by lia. apply (c_H _ _ _ _ _ _ _ C); lia.
  - intros j k Hj Hk. unfold Ho'. destruct (Nat.eqb_spec j i) as [->|].
    + change (fun j : nat => col j) with col. rewrite ROT. rewrite <- (E1 i), <- (E1 (S i)) by lia. destruct (Nat.eqb_spec k (S i)) as [->|]; [rewrite Edx, EN1; exact Z|]. destruct (Nat.eqb_spec k i); [lia|]. rewrite rot_above by lia.
      unfold col. destruct (Nat.leb_spec k i); [lia|]. destruct (Nat.eqb_spec k (S i)); [lia|reflexivity].
    + rewrite OLD by lia. apply (c_tri _ _ _ _ _ _ _ C); lia.
  - intros k. rewrite ROT. unfold st'; cbn [gs]. unfold upd. rewrite <- !(c_s _ _ _ _ _ _ _ C). reflexivity.
  - intros j Hj. unfold st'; cbn [gH]. destruct (Nat.eqb_spec j i) as [->|].
    + unfold upd. destruct (Nat.eqb_spec i (S i)); [lia|]. rewrite Nat.eqb_refl. apply HD. exact Hj.
    + apply (c_diag _ _ _ _ _ _ _ C). destruct Hm as [(-> & _)|(-> & _)]; lia.
Qed.

(** * The loops *)
Notation cycle := (cycle fmul finv fltb fsqrt t0 t1 tadd tmul tsub topp tinv teqb tconj emb tabs tsqrt re vadd vscale dot A).
Notation outer := (outer fmul finv fltb fsqrt t0 t1 tadd tmul tsub topp tinv teqb tconj emb tabs tsqrt re vadd vscale dot A).
Notation gmres := (gmres f1 fmul finv fltb fsqrt t0 t1 tadd tmul tsub topp tinv teqb tconj emb tabs tsqrt re vadd vscale dot A).
Notation sq x := (fmul x x).
Lemma le_zero_mul : forall x, fmul x x = f0 -> x = f0.
Proof.
  intros x H. apply s_inj. rewrite s_0. destruct (teqb (emb x) t0) eqn:E; [apply s_eqb; exact E|].
  assert (N : emb x <> t0) by (intros Q; rewrite Q, (proj2 (s_eqb t0 t0) eq_refl) in E; discriminate).
  transitivity (emb x * emb x * tinv (emb x)); [field; exact N|]. rewrite <- s_mul, H, s_0. ring.
Qed.
Lemma div_lt : forall a n t, lt f0 n -> lt (fmul a (finv n)) t -> lt a (fmul t n).
Proof.
  intros a n t N H. pose proof (lt_mul_pos _ _ _ _ _ _ _ _ _ OF _ _ n N H) as X. pose proof (lt_neq _ _ _ _ _ _ _ _ _ OF _ N) as Nz.
  replace (fmul n (fmul a (finv n))) with a in X by (field; exact Nz). replace (fmul n t) with (fmul t n) in X by ring. exact X.
Qed.
Lemma div_le : forall a n t, lt f0 n -> le (fmul a (finv n)) t -> le a (fmul t n).
Proof.
  intros a n t N H. pose proof (mul_le _ _ _ _ _ _ _ _ _ OF _ _ n (lt_le _ _ _ _ _ _ _ _ _ OF _ _ N) H) as X. pose proof (lt_neq _ _ _ _ _ _ _ _ _ OF _ N) as Nz.
  replace (fmul n (fmul a (finv n))) with a in X by (field; exact Nz). replace (fmul n t) with (fmul t n) in X by ring. exact X.
Qed.
Lemma sq_le : forall a c, le f0 a -> le a c -> le (sq a) (sq c).
Proof.
  intros a c P H. pose proof (mul_le _ _ _ _ _ _ _ _ _ OF _ _ a P H) as X1. pose proof (mul_le _ _ _ _ _ _ _ _ _ OF _ _ c (le_trans _ _ _ _ _ _ _ _ _ OF _ _ _ P H) H) as X2.
  apply (le_trans _ _ _ _ _ _ _ _ _ OF _ _ _ X1). replace (fmul a c) with (fmul c a) by ring. exact X2.
Qed.
Lemma core0 : forall b x beta st, vnorm (vsub b (A x)) = Ok beta -> emb beta <> t0 ->
  core 0 1 beta (vsub b (A x)) (fun _ => vscale (t1 * tinv (emb beta)) (vsub b (A x))) (fun _ _ => t0)
    (GS (upd (gv st) 0 (Some (vscale (t1 * tinv (emb beta)) (vsub b (A x))))) (gH st) (gcs st) (gsn st) (upd (fun _ => t0) 0 (emb beta))).
Proof.
  intros b x beta st N Nz. destruct (vnorm_ok _ _ N) as (E & P). pose proof (emb_neq _ Nz) as Nf.
  constructor; try (intros; lia); cbn [gv gH gcs gsn gs].
  - intros k Hk. replace k with 0 by lia. reflexivity.
  - intros j k Hj Hk. replace j with 0 by lia. replace k with 0 by lia. rewrite d_scale, d_scalel, E, s_mul. cbn [Nat.eqb].
    assert (Cq : tconj (t1 * tinv (emb beta)) = tinv (emb beta)) by (rewrite cj_mul, cj_1, <- emb_inv, cj_emb by exact Nf; ring). rewrite Cq. field. exact Nz.
  - intros u. rewrite d_scale. field. exact Nz.
  - intros k. cbn. unfold upd, e0. reflexivity.
Qed.
Lemma zero_done : forall a2 normb tol, lt f0 tol -> tabs t0 = Ok a2 -> fltb (fmul a2 (finv normb)) tol = true.
Proof.
  intros a2 normb tol P H. rewrite <- s_0 in H. destruct (s_abs _ _ H) as (E & _).
  assert (Z : a2 = f0) by (apply le_zero_mul; rewrite E; ring). rewrite Z. replace (fmul f0 (finv normb)) with f0 by ring. exact P.
Qed.
Lemma cycle_ok : forall left i j max_iter tol normb x b beta vv Ho st e, lt f0 tol -> lt f0 normb -> core i (S i) beta (vsub b (A x)) vv Ho st ->
  cycle left i j max_iter tol normb x st = Ok e ->
  match e with
  | Done x' => exists p, residual2 A b x' p /\ le p (sq (fmul tol normb)) /\ le p (sq beta)
  | More i' j' st' => exists vv' Ho', core i' (S i') beta (vsub b (A x)) vv' Ho' st' /\ i <= i' /\ (i' + j = i + j')%nat /\ (i' = (i + left)%nat \/ i' <= (i + left)%nat /\ max_iter < j')
  end.
Proof.
  induction left as [|left IH]; intros i j max_iter tol normb x b beta vv Ho st e PT PN C H; cbn [GmModel.cycle] in H.
  - injection H as <-. exists vv, Ho. split; [exact C|]. lia.
  - destruct (Nat.leb_spec j max_iter); [|injection H as <-; exists vv, Ho; split; [exact C|lia]].
    rewrite (c_v _ _ _ _ _ _ _ C i) in H by lia.
    destruct (arnoldi (S i) (gv st) (A (vv i)) (fun k => gH st k i)) as [[w h]| |] eqn:EA; cbn [obind] in H; try discriminate.
    destruct (vnorm w) as [nw| |] eqn:EN; cbn [obind] in H; try discriminate. cbv zeta in H.
    set (ov := if teqb (emb nw) t0 then _ else _) in H. destruct ov as [v| |] eqn:EV; cbn [obind] in H; try discriminate. unfold ov in EV. clear ov.
    set (h1 := rotate_all i (gcs st) (gsn st) (upd h (S i) (emb nw))) in H.
    destruct (generate_rotation (h1 i) (h1 (S i))) as [[c s]| |] eqn:EG; cbn [obind] in H; try discriminate.
    unfold GmModel.apply_rotation in H. cbv beta iota in H. cbn [gH gs gv] in H.
    destruct (step_core i beta _ vv Ho st _ w h nw v c s C EA EN EV h1 eq_refl EG) as (vv' & Ho' & m' & Hm & C').
    set (s2 := - s * gs st i + c * gs st (S i)) in *. set (st' := GS _ _ _ _ _) in *.
    assert (ES : gs st' (S i) = s2) by (unfold st'; cbn [gs]; unfold upd; rewrite Nat.eqb_refl; reflexivity).
    destruct (tabs s2) as [a2| |] eqn:E2; cbn [obind] in H; try discriminate.
    destruct (fltb (fmul a2 (finv normb)) tol) eqn:ET.
    + destruct (GmModel.update _ _ _ _ _ _ _ x (S i) _ _ _) as [x'| |] eqn:EU; cbn [obind] in H; try discriminate. injection H as <-.
      assert (Hle : S i <= m') by (destruct Hm as [(-> & _)|(-> & _)]; lia).
      pose proof (update_res (S i) m' beta b x vv' Ho' st' x' C' Hle EU) as R. rewrite ES in R.
      pose proof (core_s_real _ _ _ _ _ _ _ (S i) C') as (r & Er). rewrite ES in Er. rewrite Er in R, E2. rewrite cj_emb, <- s_mul in R.
      destruct (s_abs _ _ E2) as (Ea & Pa).
      exists (sq r). split; [exact R|]. split.
      * rewrite <- Ea. apply sq_le; [exact Pa|]. apply (lt_le _ _ _ _ _ _ _ _ _ OF). apply div_lt; assumption.
      * destruct (core_le _ _ _ _ _ _ _ C') as (p & Ep & Lp). rewrite ES, Er, cj_emb, <- s_mul in Ep. apply s_inj in Ep. rewrite Ep. exact Lp.
    + destruct Hm as [(-> & _)|(-> & _ & Z)].
      * specialize (IH (S i) (S j) max_iter tol normb x b beta vv' Ho' st' e PT PN C' H). destruct e as [x'|i' j' st1]; [exact IH|].
        destruct IH as (vv1 & Ho1 & C1 & L & Ej & K). exists vv1, Ho1. split; [exact C1|]. lia.
      * rewrite Z in E2. rewrite (zero_done a2 normb tol PT E2) in ET. discriminate.
Qed.
Lemma outer_ok : forall fuel m j max_iter tol normb b x beta st x' conv, lt f0 tol -> lt f0 normb -> vnorm (vsub b (A x)) = Ok beta ->
  outer fuel m j max_iter tol normb b x (vsub b (A x)) beta st = Ok (x', conv) ->
  exists p, residual2 A b x' p /\ le p (sq beta) /\ (conv = true -> le p (sq (fmul tol normb))).
Proof.
  induction fuel as [|fuel IH]; intros m j max_iter tol normb b x beta st x' conv PT PN EB H; [discriminate|]. cbn [GmModel.outer] in H.
  destruct (j <=? max_iter).
  2:{ injection H as <- <-. exists (sq beta). split; [apply (vnorm_ok _ _ EB)|]. split; [apply (le_refl _ _ _ _ _ _ _ _ _ OF)|discriminate]. }
  destruct (tdivo t1 (emb beta)) as [q| |] eqn:Eq; cbn [obind] in H; try discriminate. apply tdivo_ok in Eq. destruct Eq as (Nb & ->).
  pose proof (core0 b x beta st EB Nb) as C. set (st0 := GS _ _ _ _ _) in *.
  destruct (cycle m 0 j max_iter tol normb x st0) as [e| |] eqn:EC; cbn [obind] in H; try discriminate.
  pose proof (cycle_ok m 0 j max_iter tol normb x b beta _ _ st0 e PT PN C EC) as K. destruct e as [x1|i' j' st1].
  - injection H as <- <-. destruct K as (p & R & L1 & L2). exists p. auto.
  - destruct K as (vv' & Ho' & C1 & _).
    destruct (GmModel.update _ _ _ _ _ _ _ x i' _ _ _) as [x1| |] eqn:EU; cbn [obind] in H; try discriminate.
    destruct (vnorm (vsub b (A x1))) as [beta1| |] eqn:EB1; cbn [obind] in H; try discriminate.
    pose proof (update_res i' (S i') beta b x vv' Ho' st1 x1 C1 (Nat.le_succ_diag_r _) EU) as R. destruct (core_le _ _ _ _ _ _ _ C1) as (p & Ep & Lp).
    destruct (vnorm_ok _ _ EB1) as (R1 & P1). rewrite R, Ep in R1. apply s_inj in R1. subst p.
    destruct (fltb (fmul beta1 (finv normb)) tol) eqn:ET.
    + injection H as <- <-. exists (sq beta1). split; [apply (vnorm_ok _ _ EB1)|]. split; [exact Lp|]. intros _. apply sq_le; [exact P1|]. apply (lt_le _ _ _ _ _ _ _ _ _ OF). apply div_lt; assumption.
    + destruct (IH _ _ _ _ _ _ _ _ _ _ _ PT PN EB1 H) as (p & Rp & L1 & L2). exists p. split; [exact Rp|]. split; [|exact L2]. apply (le_trans _ _ _ _ _ _ _ _ _ OF _ _ _ L1 Lp).
Qed.
(** The norm gmres compares with: |b|, or 1 for b = 0. *)
Lemma normb_pos : forall b nb, vnorm b = Ok nb -> lt f0 (if teqb (emb nb) t0 then f1 else nb).
Proof.
  intros b nb H. destruct (vnorm_ok _ _ H) as (_ & P). destruct (teqb (emb nb) t0) eqn:E.
  - destruct (le_cases _ _ _ _ _ _ _ _ _ OF f0 (fmul f1 f1) (sq_nonneg _ _ _ _ _ _ _ _ _ OF f1)) as [L|Q]; [replace (fmul f1 f1) with f1 in L by ring; exact L|].
    exfalso. apply (F_1_neq_0 FT). rewrite Q. ring.
  - destruct (le_cases _ _ _ _ _ _ _ _ _ OF f0 nb P) as [L|<-]; [exact L|]. rewrite s_0, (proj2 (s_eqb t0 t0) eq_refl) in E. discriminate.
Qed.
Notation bound2 := (goal2 f0 emb dot fmul).
Lemma bound_ok : forall tol b nb q, vnorm b = Ok nb -> bound2 tol b q -> sq (fmul tol (if teqb (emb nb) t0 then f1 else nb)) = q.
Proof.
  intros tol b nb q H (n2 & E & H1 & H2). destruct (vnorm_ok _ _ H) as (E2 & _). rewrite E in E2. apply s_inj in E2. subst n2.
  destruct (teqb (emb nb) t0) eqn:Q.
  - apply s_eqb in Q. rewrite <- s_0 in Q. apply s_inj in Q. subst nb. rewrite H2 by ring. ring.
  - rewrite H1; [ring|]. intros Z. apply le_zero_mul in Z. subst nb. rewrite s_0, (proj2 (s_eqb t0 t0) eq_refl) in Q. discriminate.
Qed.
Lemma gmres_residual : forall fuel m max_iter tol b x x' conv p q, lt f0 tol -> gmres fuel m max_iter tol b x = Ok (x', conv) -> residual2 A b x p -> bound2 tol b q ->
  exists p', residual2 A b x' p' /\ le p' p /\ (conv = true -> le p' q).
Proof.
  intros fuel m max_iter tol b x x' conv p q PT H Rp Bq. unfold GmModel.gmres in H. destruct (vnorm b) as [nb| |] eqn:EN; cbn [obind] in H; try discriminate.
  destruct (vnorm (vsub b (A x))) as [beta| |] eqn:EB; cbn [obind] in H; try discriminate. pose proof (bound_ok tol b nb q EN Bq) as Eq. pose proof (normb_pos b nb EN) as PN.
  set (normb := if teqb (emb nb) t0 then f1 else nb) in *. destruct (vnorm_ok _ _ EB) as (R & P). unfold GmSpec.residual2 in Rp. rewrite R in Rp. apply s_inj in Rp. subst p q.
  destruct (fltb tol (fmul beta (finv normb))) eqn:ET; cbn [negb] in H.
  - destruct (outer_ok _ _ _ _ _ _ _ _ _ _ _ _ PT PN EB H) as (p & A1 & A2 & A3). exists p. auto.
  - injection H as <- <-. exists (sq beta). split; [exact R|]. split; [apply (le_refl _ _ _ _ _ _ _ _ _ OF)|]. intros _. apply sq_le; [exact P|]. apply div_le; assumption.
Qed.

(** * Minimality *)
Notation krylov := (krylov t0 vadd vscale).
Lemma krylov_span : forall n m beta r vv Ho st cs, core n m beta r vv Ho st -> length cs <= n ->
  exists y, forall w, dot w (krylov A r cs) = bsum (length cs) (fun k => y k * dot w (vv k)).
Proof.
  intros n m beta r vv Ho st cs C. induction cs as [|x cs IH]; intros L; cbn [GmSpec.krylov length] in *.
  - exists (fun _ => t0). intros w. rewrite d_scale. cbn. ring.
  - destruct IH as (y & Hy); [lia|]. set (l := length cs) in *. set (K := krylov A r cs) in *.
    assert (HA : forall w, dot w (A K) = bsum l (fun c => y c * dot w (A (vv c)))).
    { intros w. rewrite (A_comb l (vscale t0 K) K y vv); [rewrite a_scale; ring|]. intros u. rewrite d_scale, Hy. ring. }
    exists (fun k => x * e0 beta k + bsum l (fun c => y c * Ho k c)). intros w. rewrite d_add, d_scale, (c_r _ _ _ _ _ _ _ C w), HA.
    rewrite (bs_ext (S l) _ (fun k => x * (e0 beta k * dot w (vv k)) + bsum l (fun c => y c * (Ho k c * dot w (vv k))))).
    2:{ intros k _. transitivity (x * (e0 beta k * dot w (vv k)) + bsum l (fun c => y c * Ho k c) * dot w (vv k)); [ring|]. rewrite <- bs_mulr. f_equal. apply bs_ext. intros c _. ring. }
    rewrite bs_add, bs_mul, bs_swap. rewrite (bs_more 1 (S l) (fun k => e0 beta k * dot w (vv k))) by first [lia | intros k Hk _; unfold e0; destruct (Nat.eqb_spec k 0); [lia|]; ring].
    rewrite (bs_ext l (fun c => y c * dot w (A (vv c))) (fun j => bsum (S l) (fun i => y j * (Ho i j * dot w (vv i))))).
    2:{ intros c Hc. rewrite bs_mul. f_equal. rewrite (c_A _ _ _ _ _ _ _ C c ltac:(lia) w). symmetry. apply bs_more; [lia|]. intros k H1 H2. rewrite (c_z _ _ _ _ _ _ _ C c k) by lia. ring. }
    cbn [BigSum.bsum]. unfold e0. cbn [Nat.eqb]. ring.
Qed.
Lemma gmres_minimal : forall fuel m max_iter tol b x x' cs p' p, lt f0 tol -> max_iter <= m -> gmres fuel m max_iter tol b x = Ok (x', false) -> length cs <= max_iter ->
  residual2 A b x' p' -> residual2 A b (vadd x (krylov A (vsub b (A x)) cs)) p -> le p' p.
Proof.
  intros fuel m max_iter tol b x x' cs p' p PT Hm H L R' R. unfold GmModel.gmres in H. destruct (vnorm b) as [nb| |] eqn:EN; cbn [obind] in H; try discriminate.
  destruct (vnorm (vsub b (A x))) as [beta| |] eqn:EB; cbn [obind] in H; try discriminate. pose proof (normb_pos b nb EN) as PN.
  set (normb := if teqb (emb nb) t0 then f1 else nb) in *. destruct (fltb tol (fmul beta (finv normb))) eqn:ET; cbn [negb] in H; [|discriminate].
  destruct fuel as [|fuel]; [discriminate|]. cbn [GmModel.outer] in H. destruct (Nat.leb_spec 1 max_iter).
  2:{ injection H as <-. replace max_iter with 0 in L by lia. destruct cs as [|c cs]; [|cbn in L; lia]. cbn [GmSpec.krylov] in R. unfold GmSpec.residual2 in *.
      assert (Q : veq (vsub b (A (vadd x (vscale t0 (vsub b (A x)))))) (vsub b (A x))).
      { intros w. rewrite !d_sub, a_add, a_scale. ring. }
      rewrite (Q (vsub b (A (vadd x (vscale t0 (vsub b (A x))))))), (veq_l _ _ (vsub b (A x)) Q), R' in R. apply s_inj in R. subst. apply (le_refl _ _ _ _ _ _ _ _ _ OF). }
  destruct (tdivo t1 (emb beta)) as [q| |] eqn:Eq; cbn [obind] in H; try discriminate. apply tdivo_ok in Eq. destruct Eq as (Nb & ->).
  pose proof (core0 b x beta (GS (fun _ => None) (fun _ _ => t0) (fun _ => t0) (fun _ => t0) (fun _ => t0)) EB Nb) as C. cbn [gv gH gcs gsn] in C, H. set (st0 := GS (upd _ _ _) _ _ _ _) in *.
  destruct (cycle m 0 1 max_iter tol normb x st0) as [e| |] eqn:EC; cbn [obind] in H; try discriminate.
  pose proof (cycle_ok m 0 1 max_iter tol normb x b beta _ _ st0 e PT PN C EC) as K. destruct e as [x1|i' j' st1]; [discriminate|].
  destruct K as (vv' & Ho' & C1 & _ & Ej & Hi).
  destruct (GmModel.update _ _ _ _ _ _ _ x i' _ _ _) as [x1| |] eqn:EU; cbn [obind] in H; try discriminate.
  destruct (vnorm (vsub b (A x1))) as [beta1| |] eqn:EB1; cbn [obind] in H; try discriminate. destruct (fltb (fmul beta1 (finv normb)) tol); [discriminate|].
  destruct fuel as [|fuel]; [discriminate|]. cbn [GmModel.outer] in H. destruct (Nat.leb_spec j' max_iter); [lia|]. injection H as <-.
  destruct (krylov_span i' (S i') beta _ vv' Ho' st1 cs C1 ltac:(lia)) as (y & Hy).
  destruct (update_min i' (S i') beta b x vv' Ho' st1 (vadd x (krylov A (vsub b (A x)) cs)) (fun k => if k <? length cs then y k else t0) p C1) as (q & Eq & Lq).
  { intros w. rewrite d_add, Hy. f_equal. rewrite (bs_more (length cs) i') by first [lia | intros k K1 K2; destruct (Nat.ltb_spec k (length cs)); [lia|]; ring]. apply bs_ext. intros k Hk. destruct (Nat.ltb_spec k (length cs)); [reflexivity|lia]. }
  { exact R. }
  pose proof (update_res i' (S i') beta b x vv' Ho' st1 x1 C1 (Nat.le_succ_diag_r _) EU) as R1. unfold GmSpec.residual2 in R'. rewrite R1, Eq in R'. apply s_inj in R'. subst q. exact Lq.
Qed.

(** * The exact solution within the dimension *)
Lemma rot_zero : forall n cs sn h, (forall k, h k = t0) -> forall k, rotate_all n cs sn h k = t0.
Proof.
  induction n as [|n IH]; intros cs sn h Z k; [apply Z|]. cbn [GmModel.rotate_all]. unfold GmModel.apply_rotation, upd. rewrite !IH by exact Z. destruct (k =? S n); [ring|]. destruct (k =? n); ring.
Qed.
Lemma breakdown : forall i beta r vv Ho st, injective t0 dot A -> core (S i) (S i) beta r vv Ho st -> gH st i i <> t0.
Proof.
  intros i beta r vv Ho st INJ C Z. destruct (back_total i (gH st) (fun k => - gH st k i)) as (z & Ez); [intros k Hk; apply (c_diag _ _ _ _ _ _ _ C); lia|].
  set (y := fun k => if k =? i then t1 else z k).
  set (st' := GS (gv st) (gH st) (gcs st) (gsn st) (rotate_all (S i) (gcs st) (gsn st) (e0 f0))).
  set (x0 := vv 0).
  assert (C' : core (S i) (S i) f0 (vsub (A x0) (A x0)) vv Ho st').
  { destruct C. constructor; try assumption. - intros u. rewrite d_sub, s_0. ring. - reflexivity. }
  destruct (addup_ok (S i) y (gv st) vv x0 (c_v _ _ _ _ _ _ _ C)) as (x1 & _ & Hx).
  pose proof (res_id (S i) (S i) f0 (A x0) x0 vv Ho st' x1 y C' Hx) as R.
  rewrite bs_zero in R.
  2:{ intros k Hk. replace (gs st' k - _) with t0; [ring|]. unfold st' at 1; cbn [gs]. rewrite rot_zero by (intros j; unfold e0; destruct (j =? 0); [apply s_0|reflexivity]).
      replace (bsum (S i) _) with t0; [ring|]. symmetry. unfold st'; cbn [gcs gsn]. rewrite bs_S. unfold y at 2. rewrite Nat.eqb_refl.
      destruct (Nat.eq_dec k (S i)) as [->|].
      - rewrite (bs_zero i) by (intros c Hc; rewrite (c_tri _ _ _ _ _ _ _ C c (S i)) by lia; ring). rewrite (c_tri _ _ _ _ _ _ _ C i (S i)) by lia. ring.
      - rewrite <- (c_H _ _ _ _ _ _ _ C i k) by lia. destruct (Nat.eq_dec k i) as [->|].
        + rewrite (bs_zero i) by (intros c Hc; rewrite (c_tri _ _ _ _ _ _ _ C c i) by lia; ring). rewrite Z. ring.
        + rewrite (bs_ext i _ (fun c => (if k <=? c then gH st k c else t0) * z c)).
          * rewrite (back_ok i _ _ _ Ez k) by lia. ring.
          * intros c Hc. unfold y. destruct (Nat.eqb_spec c i); [lia|]. destruct (Nat.leb_spec k c); [rewrite (c_H _ _ _ _ _ _ _ C c k) by lia; ring|rewrite (c_tri _ _ _ _ _ _ _ C c k) by lia; ring]. }
  apply d_def in R. assert (U : vzero (A (vsub x1 x0))).
  { intros w. unfold GmSpec.vsub. rewrite a_add, a_scale. pose proof (R w) as Q. rewrite d_sub in Q. transitivity (- (dot w (A x0) - dot w (A x1))); [ring|]. rewrite Q. ring. }
  apply INJ in U. specialize (U (vv i)). rewrite d_sub, Hx in U.
  assert (Q : bsum (S i) (fun c => y c * dot (vv i) (vv c)) = t1).
  { rewrite (bs_ext (S i) _ (fun c => y c * (if i =? c then t1 else t0))) by (intros c Hc; rewrite (c_on _ _ _ _ _ _ _ C) by lia; reflexivity). rewrite bs_pick by lia. unfold y. rewrite Nat.eqb_refl. reflexivity. }
  rewrite Q in U. apply t10. rewrite <- U. ring.
Qed.
Lemma generate_total : (forall x, exists a, tabs (emb x) = Ok a) -> (forall x, le f0 x -> exists y, tsqrt (emb x) = Ok y) ->
  forall dx dy, exists c s, generate_rotation (emb dx) (emb dy) = Ok (c, s).
Proof.
  intros TA TS dx dy. unfold GmModel.generate_rotation. destruct (teqb (emb dy) t0) eqn:E0; [eexists _, _; reflexivity|].
  assert (Ny : emb dy <> t0) by (intros E; rewrite E, (proj2 (s_eqb t0 t0) eq_refl) in E0; discriminate).
  destruct (TA dy) as (ay & Ey). destruct (TA dx) as (ax & Ex). rewrite Ey, Ex. cbn [obind].
  assert (K : forall x z, emb x <> t0 -> exists q z', tsqrt (t1 + emb z * tinv (emb x) * (emb z * tinv (emb x))) = Ok q /\ tdivo t1 q = Ok z').
  { intros x z Nx. rewrite <- emb_inv by (apply emb_neq; exact Nx). rewrite <- s_1, <- !s_mul, <- s_add. destruct (one_plus_sq (fmul z (finv x))) as (P & NZ).
    destruct (TS _ P) as (q & Eq). exists q. rewrite Eq. destruct (sc_sqrt _ _ _ _ _ _ _ _ _ _ _ _ _ _ _ _ _ _ SC _ _ P Eq) as (r & -> & Er & _).
    assert (Nr : emb r <> t0) by (intros E; apply NZ; rewrite <- s_0 in E; apply s_inj in E; subst r; rewrite <- Er; ring). rewrite s_1, tdivo_total by exact Nr. eauto. }
  destruct (fltb ax ay) eqn:EL.
  - rewrite (tdivo_total (emb dx) _ Ny). cbn [obind]. destruct (K dy dx Ny) as (q & z' & E1 & E2). rewrite E1. cbn [obind]. rewrite E2. cbn [obind]. eauto.
  - assert (Nx : emb dx <> t0).
    { intros E. rewrite <- s_0 in E. apply s_inj in E. subst dx. destruct (s_abs _ _ Ex) as (X1 & _). destruct (s_abs _ _ Ey) as (Y1 & Y2).
      assert (Zx : ax = f0) by (apply le_zero_mul; rewrite X1; ring). subst ax. destruct (le_cases _ _ _ _ _ _ _ _ _ OF f0 ay Y2) as [Q|<-]; [rewrite Q in EL; discriminate|].
      apply Ny. rewrite <- s_0. f_equal. apply le_zero_mul. rewrite <- Y1. ring. }
    rewrite (tdivo_total (emb dy) _ Nx). cbn [obind]. destruct (K dx dy Nx) as (q & z' & E1 & E2). rewrite E1. cbn [obind]. rewrite E2. cbn [obind]. eauto.
Qed.
Lemma cycle_total : (forall x, le f0 x -> exists r, fsqrt x = Ok r) -> (forall x, exists a, tabs (emb x) = Ok a) -> (forall x, le f0 x -> exists y, tsqrt (emb x) = Ok y) ->
  injective t0 dot A ->
  forall left i j max_iter tol normb x b beta vv Ho st, lt f0 tol -> lt f0 normb -> core i (S i) beta (vsub b (A x)) vv Ho st ->
  exists e, cycle left i j max_iter tol normb x st = Ok e.
Proof.
  intros TF_ TA TS INJ. induction left as [|left IH]; intros i j max_iter tol normb x b beta vv Ho st PT PN C.
  - cbn [GmModel.cycle]. eauto.
  - cbn [GmModel.cycle]. destruct (Nat.leb_spec j max_iter); [|eauto]. rewrite (c_v _ _ _ _ _ _ _ C i) by lia.
    destruct (arn i beta _ vv Ho st (fun k => gH st k i) C) as (w & h & EA & HR & _). rewrite EA. cbn [obind].
    destruct (d_pos w) as (w2 & Ew2 & Pw2). destruct (TF_ w2 Pw2) as (nw & Enw). assert (EN : vnorm w = Ok nw) by (unfold GmModel.vnorm; rewrite Ew2, RE; exact Enw). rewrite EN. cbn [obind]. cbv zeta.
    set (ov := if teqb (emb nw) t0 then _ else _). assert (EV : exists v, ov = Ok v).
    { unfold ov. destruct (teqb (emb nw) t0) eqn:E0; [eauto|]. rewrite tdivo_total; [cbn [obind]; eauto|]. intros E. rewrite E, (proj2 (s_eqb t0 t0) eq_refl) in E0. discriminate. }
    destruct EV as (v & EV). rewrite EV. cbn [obind]. set (h1 := rotate_all i (gcs st) (gsn st) (upd h (S i) (emb nw))).
    set (col := fun k => if k <=? i then h k else if k =? S i then emb nw else t0).
    assert (Rcol : forall k, isreal (col k)).
    { intros k. unfold col. destruct (Nat.leb_spec k i); [apply HR; assumption|]. destruct (k =? S i); [eexists; reflexivity|apply real_0]. }
    assert (E1 : forall k, k <= S i -> h1 k = rotate_all i (gcs st) (gsn st) col k).
    { intros k Hk. unfold h1. apply (rot_ext i (S i)); [lia|auto| |exact Hk]. intros a Ha. unfold upd, col. destruct (Nat.eqb_spec a (S i)) as [->|]; [destruct (Nat.leb_spec (S i) i); [lia|reflexivity]|]. destruct (Nat.leb_spec a i); [reflexivity|lia]. }
    assert (R1 : forall k, k <= S i -> isreal (h1 k)) by (intros k Hk; rewrite E1 by exact Hk; apply rot_real; [apply (c_rot _ _ _ _ _ _ _ C)|exact Rcol]).
    destruct (R1 i ltac:(lia)) as (dx & Edx). destruct (R1 (S i) ltac:(lia)) as (dy & Edy). destruct (generate_total TA TS dx dy) as (c & s & EG). rewrite <- Edx, <- Edy in EG. rewrite EG. cbn [obind].
    unfold GmModel.apply_rotation. cbv beta iota. cbn [gH gs gv].
    destruct (step_core i beta _ vv Ho st _ w h nw v c s C EA EN EV h1 eq_refl EG) as (vv' & Ho' & m' & Hm & C').
    set (s2 := - s * gs st i + c * gs st (S i)) in *. set (st' := GS _ _ _ _ _) in *.
    assert (ES : gs st' (S i) = s2) by (unfold st'; cbn [gs]; unfold upd; rewrite Nat.eqb_refl; reflexivity).
    pose proof (core_s_real _ _ _ _ _ _ _ (S i) C') as (r & Er). rewrite ES in Er. destruct (TA r) as (a2 & E2). rewrite <- Er in E2. rewrite E2. cbn [obind].
    destruct (fltb (fmul a2 (finv normb)) tol) eqn:ET.
    + assert (EU : exists x', update x (S i) (gH st') (gs st') (gv st') = Ok x').
      { unfold GmModel.update. destruct (back_total (S i) (gH st') (gs st')) as (z & ->).
        - intros k Hk. destruct Hm as [(-> & _)|(-> & _)]; [apply (c_diag _ _ _ _ _ _ _ C'); lia|]. destruct (Nat.eq_dec k i) as [->|]; [apply (breakdown i _ _ _ _ _ INJ C')|apply (c_diag _ _ _ _ _ _ _ C'); lia].
        - cbn [obind]. destruct (addup_ok (S i) z (gv st') vv' x) as (x1 & -> & _); [intros k Hk; apply (c_v _ _ _ _ _ _ _ C'); destruct Hm as [(-> & _)|(-> & _)]; lia|eauto]. }
      destruct EU as (x' & EU). unfold st' in EU; cbn [gH gs gv] in EU. fold s2 in EU. rewrite EU. cbn [obind]. eauto.
    + destruct Hm as [(-> & _)|(-> & _ & Z)].
      * apply (IH (S i) (S j) max_iter tol normb x b beta vv' Ho' st' PT PN C').
      * rewrite Z in E2. rewrite (zero_done a2 normb tol PT E2) in ET. discriminate.
Qed.
Lemma gmres_start : (forall x, le f0 x -> exists r, fsqrt x = Ok r) -> forall v, exists nv, vnorm v = Ok nv.
Proof. intros TF_ v. destruct (d_pos v) as (p & E & P). destruct (TF_ p P) as (r & Er). exists r. unfold GmModel.vnorm. rewrite E, RE. exact Er. Qed.
Lemma beta_nz : forall tol normb beta, lt f0 tol -> fltb (fmul beta (finv normb)) tol = false -> emb beta <> t0.
Proof. intros tol normb beta PT ET E. rewrite <- s_0 in E. apply s_inj in E. subst beta. replace (fmul f0 (finv normb)) with f0 in ET by ring. rewrite PT in ET. discriminate. Qed.
Lemma gmres_solves : (forall x, le f0 x -> exists r, fsqrt x = Ok r) -> (forall x, exists a, tabs (emb x) = Ok a) -> (forall x, le f0 x -> exists y, tsqrt (emb x) = Ok y) ->
  forall N, injective t0 dot A -> dimension_at_most t0 t1 dot N ->
  forall fuel m max_iter tol b x, lt f0 tol -> N <= m -> N <= max_iter -> 0 < fuel -> exists x', gmres fuel m max_iter tol b x = Ok (x', true).
Proof.
  intros TF_ TA TS N INJ DIM fuel m max_iter tol b x PT Hm HI HF. unfold GmModel.gmres. pose proof (gmres_start TF_) as TN.
  destruct (TN b) as (nb & EN). rewrite EN. cbn [obind]. destruct (TN (vsub b (A x))) as (beta & EB). rewrite EB. cbn [obind]. pose proof (normb_pos b nb EN) as PN.
  set (normb := if teqb (emb nb) t0 then f1 else nb) in *. destruct (fltb tol (fmul beta (finv normb))) eqn:ET; cbn [negb]; [|eauto].
  destruct fuel as [|fuel]; [lia|]. cbn [GmModel.outer].
  pose proof (beta_nz tol normb beta PT (lt_le _ _ _ _ _ _ _ _ _ OF _ _ ET)) as Nb.
  pose proof (core0 b x beta (GS (fun _ => None) (fun _ _ => t0) (fun _ => t0) (fun _ => t0) (fun _ => t0)) EB Nb) as C. cbn [gv gH gcs gsn] in C |- *.
  assert (N1 : 1 <= N). { destruct N; [|lia]. exfalso. apply (DIM (fun _ => vscale (t1 * tinv (emb beta)) (vsub b (A x)))). exact (c_on _ _ _ _ _ _ _ C). }
  destruct (Nat.leb_spec 1 max_iter); [|lia]. rewrite (tdivo_total _ _ Nb). cbn [obind].
  destruct (cycle_total TF_ TA TS INJ m 0 1 max_iter tol normb x b beta _ _ _ PT PN C) as (e & E). rewrite E. cbn [obind].
  pose proof (cycle_ok m 0 1 max_iter tol normb x b beta _ _ _ e PT PN C E) as K. destruct e as [x1|i' j' st1]; [eauto|]. exfalso.
  destruct K as (vv' & Ho' & C1 & _ & Ej & Hi). apply (DIM vv'). intros a c Ha Hc. apply (c_on _ _ _ _ _ _ _ C1); lia.
Qed.
Lemma outer_total : (forall x, le f0 x -> exists r, fsqrt x = Ok r) -> (forall x, exists a, tabs (emb x) = Ok a) -> (forall x, le f0 x -> exists y, tsqrt (emb x) = Ok y) ->
  injective t0 dot A -> forall fuel m j max_iter tol normb b x beta st, lt f0 tol -> lt f0 normb -> 0 < m -> S max_iter < (fuel + j)%nat -> 0 < fuel ->
  vnorm (vsub b (A x)) = Ok beta -> emb beta <> t0 -> exists o, outer fuel m j max_iter tol normb b x (vsub b (A x)) beta st = Ok o.
Proof.
  intros TF_ TA TS INJ. induction fuel as [|fuel IH]; intros m j max_iter tol normb b x beta st PT PN Hm HF HF0 EB Nb; [lia|].
  cbn [GmModel.outer]. destruct (Nat.leb_spec j max_iter); [|eauto]. rewrite (tdivo_total _ _ Nb). cbn [obind]. pose proof (core0 b x beta st EB Nb) as C.
  destruct (cycle_total TF_ TA TS INJ m 0 j max_iter tol normb x b beta _ _ _ PT PN C) as (e & E). rewrite E. cbn [obind].
  pose proof (cycle_ok m 0 j max_iter tol normb x b beta _ _ _ e PT PN C E) as K. destruct e as [x1|i' j' st1]; [eauto|].
  destruct K as (vv' & Ho' & C1 & _ & Ej & Hi). unfold GmModel.update.
  destruct (back_total i' (gH st1) (gs st1)) as (z & ->); [intros k Hk; apply (c_diag _ _ _ _ _ _ _ C1); lia|]. cbn [obind].
  destruct (addup_ok i' z (gv st1) vv' x) as (x1 & -> & _); [intros k Hk; apply (c_v _ _ _ _ _ _ _ C1); lia|]. cbn [obind].
  destruct (gmres_start TF_ (vsub b (A x1))) as (beta1 & EB1). rewrite EB1. cbn [obind]. destruct (fltb (fmul beta1 (finv normb)) tol) eqn:ET; [eauto|].
  destruct fuel as [|fuel]; [lia|]. apply IH; try assumption; try lia. exact (beta_nz _ _ _ PT ET).
Qed.
Lemma gmres_total : (forall x, le f0 x -> exists r, fsqrt x = Ok r) -> (forall x, exists a, tabs (emb x) = Ok a) -> (forall x, le f0 x -> exists y, tsqrt (emb x) = Ok y) ->
  injective t0 dot A -> forall fuel m max_iter tol b x, lt f0 tol -> 0 < m -> max_iter < fuel -> exists o, gmres fuel m max_iter tol b x = Ok o.
Proof.
  intros TF_ TA TS INJ fuel m max_iter tol b x PT Hm HF. unfold GmModel.gmres. pose proof (gmres_start TF_) as TN.
  destruct (TN b) as (nb & EN). rewrite EN. cbn [obind]. destruct (TN (vsub b (A x))) as (beta & EB). rewrite EB. cbn [obind]. pose proof (normb_pos b nb EN) as PN.
  set (normb := if teqb (emb nb) t0 then f1 else nb) in *. destruct (fltb tol (fmul beta (finv normb))) eqn:ET; cbn [negb]; [|eauto].
  apply outer_total; try assumption; try lia. exact (beta_nz tol normb beta PT (lt_le _ _ _ _ _ _ _ _ _ OF _ _ ET)).
Qed.
(** RestartIter = 0: the while loop never ends. *)
Lemma restart_zero : forall fuel max_iter tol normb b x beta st, 0 < max_iter -> fltb tol (fmul beta (finv normb)) = true -> vnorm (vsub b (A x)) = Ok beta ->
  forall o, outer fuel 0 1 max_iter tol normb b x (vsub b (A x)) beta st <> Ok o.
Proof.
  induction fuel as [|fuel IH]; intros max_iter tol normb b x beta st P ET EB o; [discriminate|]. cbn [GmModel.outer]. destruct (Nat.leb_spec 1 max_iter); [|lia].
  destruct (tdivo t1 (emb beta)); cbn [obind]; try discriminate. cbn [GmModel.cycle obind GmModel.update GmModel.backsolve GmModel.addup].
  unfold GmModel.update. cbn [GmModel.backsolve obind GmModel.addup]. rewrite EB. cbn [obind]. rewrite (lt_le _ _ _ _ _ _ _ _ _ OF _ _ ET). apply IH; assumption.
Qed.
End Gm.
