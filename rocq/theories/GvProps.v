(** C69: products and elementwise operations on views of matrices and vectors act on exactly the elements of the views. *)
From Coq Require Import List Arith Bool Lia Ring ZArith.
From Verif Require Import Util BigSum GvSpec GvModel GvProofs.
Import ListNotations.

(** ** Views: the elements of a slice are the elements of the matrix it is taken from, for every matrix view. *)
Theorem C69_views : forall dbg v,
  (forall i j, maddr (transpose v) i j = maddr v j i) /\ m_rn (transpose v) = m_cn v /\ m_cn (transpose v) = m_rn v /\
  (forall r0 r1 c0 c1, r0 < r1 <= m_rn v -> c0 < c1 <= m_cn v ->
     exists s, subMatrix dbg v r0 r1 c0 c1 = Ok s /\ m_rn s = r1 - r0 /\ m_cn s = c1 - c0 /\ forall i j, maddr s i j = maddr v (r0 + i) (c0 + j)) /\
  (forall r0 r1, r0 < r1 <= m_rn v -> 1 <= m_cn v -> exists s, rows dbg v r0 r1 = Ok s /\ m_rn s = r1 - r0 /\ m_cn s = m_cn v /\ forall i j, maddr s i j = maddr v (r0 + i) j) /\
  (forall c0 c1, c0 < c1 <= m_cn v -> 1 <= m_rn v -> exists s, columns dbg v c0 c1 = Ok s /\ m_rn s = m_rn v /\ m_cn s = c1 - c0 /\ forall i j, maddr s i j = maddr v i (c0 + j)) /\
  (forall r, r < m_rn v -> exists w, row dbg v r = Ok w /\ w_n w = m_cn v /\ forall j, vaddr w j = maddr v r j) /\
  (forall c, c < m_cn v -> exists w, column dbg v c = Ok w /\ w_n w = m_rn v /\ forall i, vaddr w i = maddr v i c) /\
  w_n (diagonal v) = min (m_rn v) (m_cn v) /\ (forall i, vaddr (diagonal v) i = maddr v i i).
Proof.
  intros dbg v.
  assert (SUB : forall r0 r1 c0 c1, r0 < r1 <= m_rn v -> c0 < c1 <= m_cn v ->
     exists s, subMatrix dbg v r0 r1 c0 c1 = Ok s /\ m_rn s = r1 - r0 /\ m_cn s = c1 - c0 /\ forall i j, maddr s i j = maddr v (r0 + i) (c0 + j)).
  { intros r0 r1 c0 c1 Hr Hc. unfold subMatrix.
    replace (m_rn v <? r1) with false by (symmetry; apply Nat.ltb_ge; lia). replace (r1 <=? r0) with false by (symmetry; apply Nat.leb_gt; lia).
    replace (m_cn v <? c1) with false by (symmetry; apply Nat.ltb_ge; lia). replace (c1 <=? c0) with false by (symmetry; apply Nat.leb_gt; lia).
    cbn [orb]. rewrite !andb_false_r. eexists. split; [reflexivity|]. cbn [m_rn m_cn]. split; [reflexivity|]. split; [reflexivity|]. intros i j. unfold maddr. cbn [m_at m_rs m_cs]. nia. }
  split; [apply tr_addr|]. split; [reflexivity|]. split; [reflexivity|]. split; [exact SUB|].
  split. { intros r0 r1 Hr Hc. destruct (SUB r0 r1 0 (m_cn v) Hr ltac:(lia)) as [s [E [A [B C]]]]. exists s. split; [exact E|]. split; [exact A|]. split; [lia|exact C]. }
  split. { intros c0 c1 Hc Hr. destruct (SUB 0 (m_rn v) c0 c1 ltac:(lia) Hc) as [s [E [A [B C]]]]. exists s. split; [exact E|]. split; [lia|]. split; [exact B|exact C]. }
  split. { intros r Hr. unfold row. replace (m_rn v <? r) with false by (symmetry; apply Nat.ltb_ge; lia). rewrite andb_false_r. eexists. split; [reflexivity|]. split; [reflexivity|]. intros j. unfold vaddr, maddr. cbn [w_at w_s]. lia. }
  split. { intros c Hc. unfold column. replace (m_cn v <? c) with false by (symmetry; apply Nat.ltb_ge; lia). rewrite andb_false_r. eexists. split; [reflexivity|]. split; [reflexivity|]. intros i. unfold vaddr, maddr. cbn [w_at w_s]. lia. }
  split; [reflexivity|]. intros i. unfold vaddr, maddr, diagonal. cbn [w_at w_s]. lia.
Qed.
(** Neighbouring columns of a column-major matrix, and neighbouring rows of its transpose, are contiguous, so they can be factors
    and results of products. *)
Theorem C69_contiguous_slices : forall dbg v,
  (column_major v -> forall c0 c1, c0 < c1 <= m_cn v -> 1 <= m_rn v -> exists s, columns dbg v c0 c1 = Ok s /\ column_major s) /\
  (row_major v -> forall r0 r1, r0 < r1 <= m_rn v -> 1 <= m_cn v -> exists s, rows dbg v r0 r1 = Ok s /\ row_major s) /\
  (contiguous v -> contiguous (transpose v)) /\ (isContiguous v = true <-> contiguous v).
Proof.
  intros dbg v. split; [|split; [|split; [apply tr_contig|apply contig_b]]].
  - intros [A B] c0 c1 Hc Hr. unfold columns, subMatrix. replace (m_rn v <? m_rn v) with false by (symmetry; apply Nat.ltb_ge; lia). replace (m_rn v <=? 0) with false by (symmetry; apply Nat.leb_gt; lia).
    replace (m_cn v <? c1) with false by (symmetry; apply Nat.ltb_ge; lia). replace (c1 <=? c0) with false by (symmetry; apply Nat.leb_gt; lia).
    cbn [orb]. rewrite !andb_false_r. eexists. split; [reflexivity|]. split; cbn [m_rs m_cs m_rn]; lia.
  - intros [A B] r0 r1 Hr Hc. unfold rows, subMatrix. replace (m_rn v <? r1) with false by (symmetry; apply Nat.ltb_ge; lia). replace (r1 <=? r0) with false by (symmetry; apply Nat.leb_gt; lia).
    replace (m_cn v <? m_cn v) with false by (symmetry; apply Nat.ltb_ge; lia). replace (m_cn v <=? 0) with false by (symmetry; apply Nat.leb_gt; lia).
    cbn [orb]. rewrite !andb_false_r. eexists. split; [reflexivity|]. split; cbn [m_rs m_cs m_cn]; lia.
Qed.
(** The row and column checks of DEBUG let the index one past the end through: that row of a column-major matrix starts at the second column. *)
Theorem C69_row_check_refuted : forall v, column_major v ->
  (exists w, row true v (m_rn v) = Ok w /\ forall j, vaddr w j = maddr v 0 (S j)) /\
  (exists w, column true v (m_cn v) = Ok w /\ forall i, i < m_rn v -> ~ inview Re v (vaddr w i)).
Proof.
  intros v [A B]. split.
  - unfold row. replace (m_rn v <? m_rn v) with false by (symmetry; apply Nat.ltb_ge; lia). cbn [andb]. eexists. split; [reflexivity|]. intros j. unfold vaddr, maddr. cbn [w_at w_s]. rewrite A, B. nia.
  - unfold column. replace (m_cn v <? m_cn v) with false by (symmetry; apply Nat.ltb_ge; lia). cbn [andb]. eexists. split; [reflexivity|]. intros i Hi [r [c [Hr [Hc E]]]]. cbn [place] in E. unfold vaddr, maddr in E. cbn [w_at w_s] in E. rewrite A, B in E. nia.
Qed.

Section Props.
Context {T : Type} (t0 t1 : T) (tadd tmul tsub tdiv : T -> T -> T) (topp : T -> T) (tzero : T -> bool).
Context (RT : ring_theory t0 t1 tadd tmul tsub topp eq).
Add Ring RGvp : RT.
Context (TZ : forall x, tzero x = true <-> x = t0).
Notation zadd := (zplus tadd). Notation zsub := (zminus tsub). Notation zmul := (ztimes tadd tmul tsub). Notation zre := (zreal t0).
Notation zsum := (zsum t0 tadd). Notation melt := (mat_elt t0). Notation velt := (vec_elt t0).
Notation gemm := (gemm t0 t1 tadd tmul tsub topp tzero).
Notation mult_mat := (mult_mat t0 t1 tadd tmul tsub topp tzero).
Notation mult := (mult t0 t1 tadd tmul tsub tzero). Notation multAdd := (multAdd t0 t1 tadd tmul tsub tzero). Notation multSub := (multSub t0 t1 tadd tmul tsub topp tzero).

(** ** gemm: for all contiguous views of matching shape, in any combination of orientations, real or complex, compiled with or
    without zgemm and DEBUG, and whatever the work buffer holds at first: C becomes alpha A B + beta C, and nothing else changes. *)
Theorem C69_gemm : forall dbg usez garbage ka kb MA A MB B MC C alpha beta,
  contiguous A -> contiguous B -> contiguous C -> m_cn A = m_rn B -> m_rn A = m_rn C -> m_cn B = m_cn C ->
  1 <= m_rn A -> 1 <= m_cn A -> 1 <= m_cn B ->
  let kc := product_kind ka kb in
  exists MC', gemm dbg usez garbage ka kb MA A MB B MC C alpha beta = Ok MC' /\
    (forall i j, i < m_rn C -> j < m_cn C ->
       melt kc MC' C i j = zadd (zmul (zre alpha) (zsum (m_cn A) (fun l => zmul (melt ka MA A i l) (melt kb MB B l j)))) (zmul (zre beta) (melt kc MC C i j))) /\
    (forall p, ~ inview kc C p -> MC' p = MC p).
Proof. intros dbg usez garbage ka kb MA A MB B MC C alpha beta CA CB CC KK R1 R2 Hm Hk Hn kc. exact (gemm_ok t0 t1 tadd tmul tsub topp tzero RT TZ dbg usez garbage ka kb MA A MB B MC C alpha beta CA CB CC KK R1 R2 Hm Hk Hn). Qed.
(** With DEBUG, anything else throws. *)
Theorem C69_gemm_throws : forall usez garbage ka kb MA A MB B MC C alpha beta,
  ~ (contiguous A /\ contiguous B /\ contiguous C /\ m_cn A = m_rn B /\ m_rn A = m_rn C /\ m_cn B = m_cn C) ->
  gemm true usez garbage ka kb MA A MB B MC C alpha beta = Err.
Proof.
  intros usez garbage ka kb MA A MB B MC C alpha beta N. unfold GvModel.gemm. cbn [andb].
  destruct (isContiguous A) eqn:E1; [|reflexivity]. destruct (isContiguous B) eqn:E2; [|reflexivity]. destruct (isContiguous C) eqn:E3; [|reflexivity]. cbn [andb negb].
  destruct (Nat.eqb_spec (m_cn A) (m_rn B)); cbn [negb]; [|reflexivity]. destruct (Nat.eqb_spec (m_rn A) (m_rn C)); cbn [negb orb]; [|reflexivity]. destruct (Nat.eqb_spec (m_cn B) (m_cn C)); cbn [negb]; [|reflexivity].
  exfalso. apply N. apply contig_b in E1, E2, E3. auto 10.
Qed.
(** mult(A,B), and A*B: a new matrix with the elements of the product. *)
Theorem C69_product : forall dbg usez garbage ka kb MA A MB B,
  contiguous A -> contiguous B -> m_cn A = m_rn B -> 1 <= m_rn A -> 1 <= m_cn A -> 1 <= m_cn B ->
  exists C MC, mult_mat dbg usez garbage ka kb MA A MB B = Ok (C, MC) /\ m_rn C = m_rn A /\ m_cn C = m_cn B /\ column_major C /\
    forall i j, i < m_rn A -> j < m_cn B -> melt (product_kind ka kb) MC C i j = zsum (m_cn A) (fun l => zmul (melt ka MA A i l) (melt kb MB B l j)).
Proof.
  intros dbg usez garbage ka kb MA A MB B CA CB KK Hm Hk Hn. unfold GvModel.mult_mat. cbv zeta. set (C := fresh (m_rn A) (m_cn B)).
  assert (CC : column_major C) by (split; reflexivity).
  destruct (C69_gemm dbg usez garbage ka kb MA A MB B (fun _ => t0) C t1 t0 CA CB (or_introl CC) KK eq_refl eq_refl Hm Hk Hn) as [M [E [V _]]].
  rewrite E. cbn [obind]. exists C, M. split; [reflexivity|]. split; [reflexivity|]. split; [reflexivity|]. split; [exact CC|].
  intros i j Hi Hj. rewrite (V i j Hi Hj). set (S := zsum _ _). apply zeq; unfold zplus, ztimes; cbn [fst snd zreal]; ring.
Qed.
(** Without DEBUG a view that is not contiguous is read as if it were: the first row of a 2x2 matrix times (1,1). *)
Theorem C69_noncontiguous_refuted : exists M A s garbage,
  rows true A 0 1 = Ok s /\ column_major A /\ gemm true false garbage Re Re M s (fun _ => t1) (fresh 2 1) M (fresh 1 1) t1 t0 = Err /\
  (t1 <> t0 -> exists MC, gemm false false garbage Re Re M s (fun _ => t1) (fresh 2 1) M (fresh 1 1) t1 t0 = Ok MC /\
     melt Re MC (fresh 1 1) 0 0 <> zsum 2 (fun l => zmul (melt Re M s 0 l) (melt Re (fun _ => t1) (fresh 2 1) l 0))).
Proof.
  exists (fun p => match p with 2 => t1 | _ => t0 end), (fresh 2 2), (MView 1 1 2 2 0), (fun _ => t0).
  split; [reflexivity|]. split; [split; reflexivity|]. split; [reflexivity|]. intros N.
  unfold GvModel.gemm. cbn [andb isTransposed isContiguous isNormal m_rs m_cn m_cs m_rn fresh Nat.eqb orb negb]. eexists. split; [reflexivity|].
  intros Q. apply N. apply (f_equal fst) in Q. unfold mat_elt, maddr in Q. cbn in Q. rewrite (proj2 (TZ t0) eq_refl) in Q. unfold put in Q. cbn in Q. symmetry in Q.
  ring_simplify in Q. exact Q.
Qed.

(** ** Matrix times vector: y becomes M x (or x M, fromleft), y + M x, y - M x, for vector views of any stride. *)
Definition mv (k : vkind) (MM : mem T) (M : mview) (X : mem T) (x : vview) (fromleft : bool) (i : nat) : T * T :=
  if fromleft then zsum (m_rn M) (fun l => zmul (velt k X x l) (melt k MM M l i)) else zsum (m_cn M) (fun l => zmul (melt k MM M i l) (velt k X x l)).
Theorem C69_matrix_vector : forall dbg k MM M X x Y y (fromleft : bool), contiguous M -> 1 <= m_rn M -> 1 <= m_cn M -> 1 <= w_s x -> 1 <= w_s y ->
  w_n x = (if fromleft then m_rn M else m_cn M) -> w_n y = (if fromleft then m_cn M else m_rn M) ->
  (exists Y', mult dbg k MM M X x Y y fromleft = Ok Y' /\ (forall i, i < w_n y -> velt k Y' y i = mv k MM M X x fromleft i) /\ forall p, ~ invec k y p -> Y' p = Y p) /\
  (exists Y', multAdd dbg k MM M X x Y y fromleft = Ok Y' /\ (forall i, i < w_n y -> velt k Y' y i = zadd (velt k Y y i) (mv k MM M X x fromleft i)) /\ forall p, ~ invec k y p -> Y' p = Y p) /\
  (exists Y', multSub dbg k MM M X x Y y fromleft = Ok Y' /\ (forall i, i < w_n y -> velt k Y' y i = zsub (velt k Y y i) (mv k MM M X x fromleft i)) /\ forall p, ~ invec k y p -> Y' p = Y p).
Proof.
  intros dbg k MM M X x Y y fl CM Hr Hc Sx Sy Nx Ny.
  assert (G : forall alpha beta, exists Y', checked_gemv t0 tadd tmul tsub tzero dbg k MM M X x Y y alpha beta fl = Ok Y' /\
     (forall i, i < w_n y -> velt k Y' y i = zadd (zmul (zre alpha) (mv k MM M X x fl i)) (zmul (zre beta) (velt k Y y i))) /\ forall p, ~ invec k y p -> Y' p = Y p).
  { intros alpha beta. unfold checked_gemv.
    replace (dbg && negb (if fl then m_rn M =? w_n x else m_cn M =? w_n x))%bool with false by (rewrite Nx; destruct fl; rewrite Nat.eqb_refl; now rewrite andb_false_r).
    replace (dbg && negb (if fl then m_cn M =? w_n y else m_rn M =? w_n y))%bool with false by (rewrite Ny; destruct fl; rewrite Nat.eqb_refl; now rewrite andb_false_r).
    destruct (gemv_ok t0 t1 tadd tmul tsub topp tzero RT TZ dbg k MM M X x Y y alpha beta fl CM Hr Hc Sx Sy) as [Y' [E [V F]]]. exists Y'. split; [exact E|]. split.
    - intros i Hi. unfold vec_elt at 1 2, vaddr. rewrite V by lia. unfold lin, mv. do 2 f_equal. destruct fl; [|reflexivity]. apply zsum_ext. intros l _. apply (zmul_comm t0 t1 tadd tmul tsub topp RT).
    - intros p N. apply F. intros i Hi P. apply N. exists i. split; [lia|exact P]. }
  split; [|split].
  - destruct (G t1 t0) as [Y' [E [V F]]]. exists Y'. split; [exact E|]. split; [|exact F]. intros i Hi. rewrite (V i Hi). apply zeq; unfold zplus, ztimes; cbn [fst snd zreal]; ring.
  - destruct (G t1 t1) as [Y' [E [V F]]]. exists Y'. split; [exact E|]. split; [|exact F]. intros i Hi. rewrite (V i Hi). apply zeq; unfold zplus, ztimes; cbn [fst snd zreal]; ring.
  - destruct (G (topp t1) t1) as [Y' [E [V F]]]. exists Y'. split; [exact E|]. split; [|exact F]. intros i Hi. rewrite (V i Hi). apply zeq; unfold zplus, zminus, ztimes; cbn [fst snd zreal]; ring.
Qed.
(** The operators M*v and v*M: new vectors. *)
Theorem C69_vector_operators : forall dbg k MM M X x, contiguous M -> 1 <= m_rn M -> 1 <= m_cn M -> 1 <= w_s x ->
  (w_n x = m_cn M -> exists y Y, mat_times_vec t0 t1 tadd tmul tsub tzero dbg k MM M X x = Ok (y, Y) /\ w_n y = m_rn M /\ forall i, i < m_rn M -> velt k Y y i = mv k MM M X x false i) /\
  (w_n x = m_rn M -> exists y Y, vec_times_mat t0 t1 tadd tmul tsub tzero dbg k X x MM M = Ok (y, Y) /\ w_n y = m_cn M /\ forall i, i < m_cn M -> velt k Y y i = mv k MM M X x true i).
Proof.
  intros dbg k MM M X x CM Hr Hc Sx. split; intros Nx; unfold mat_times_vec, vec_times_mat, new_vec; cbv zeta.
  - rewrite Nat.ltb_irrefl. destruct (C69_matrix_vector dbg k MM M X x (fun _ => t0) (VView (m_rn M) 1 0) false CM Hr Hc Sx (le_n 1) Nx eq_refl) as [[Y' [E [V _]]] _].
    rewrite E. cbn [obind]. eexists _, _. split; [reflexivity|]. split; [reflexivity|exact V].
  - rewrite Nat.ltb_irrefl. destruct (C69_matrix_vector dbg k MM M X x (fun _ => t0) (VView (m_cn M) 1 0) true CM Hr Hc Sx (le_n 1) Nx eq_refl) as [[Y' [E [V _]]] _].
    rewrite E. cbn [obind]. eexists _, _. split; [reflexivity|]. split; [reflexivity|exact V].
Qed.
(** mult(M,x,fromleft) returning a vector: right for square matrices from the right. *)
Notation mult_vec := (mult_vec t0 t1 tadd tmul tsub tzero).
Theorem C69_mult_returning : forall dbg k MM M X x, contiguous M -> 1 <= m_rn M -> m_cn M = m_rn M -> w_n x = m_rn M -> 1 <= w_s x ->
  exists y Y, mult_vec dbg k MM M X x false = Ok (y, Y) /\ w_n y = m_rn M /\ forall i, i < m_rn M -> velt k Y y i = mv k MM M X x false i.
Proof.
  intros dbg k MM M X x CM Hr Sq Nx Sx. unfold GvModel.mult_vec. rewrite Sq, Nx, Nat.eqb_refl. cbn [andb negb]. rewrite andb_false_r. unfold new_vec. cbv zeta. rewrite Nat.ltb_irrefl.
  destruct (C69_matrix_vector dbg k MM M X x (fun _ => t0) (VView (m_rn M) 1 0) false CM Hr ltac:(lia) Sx (le_n 1)) as [[Y' [E [V _]]] _]; [congruence|reflexivity|].
  rewrite E. cbn [obind]. eexists _, _. split; [reflexivity|]. split; [reflexivity|exact V].
Qed.
(** Otherwise not: fromleft makes no difference, so x M is not what is returned; a matrix with more rows than columns makes it write
    outside the vector it allocated; and with DEBUG every matrix that is not square throws. *)
Theorem C69_mult_returning_refuted :
  (forall dbg k MM M X x, mult_vec dbg k MM M X x true = mult_vec dbg k MM M X x false) /\
  (forall k MM M X x fromleft, m_cn M < m_rn M -> w_n x = m_cn M -> mult_vec false k MM M X x fromleft = UB) /\
  (forall k MM M X x fromleft, m_cn M <> m_rn M -> mult_vec true k MM M X x fromleft = Err) /\
  (t1 <> t0 -> exists MM y Y, mult_vec true Re MM (fresh 2 2) (fun _ => t1) (VView 2 1 0) true = Ok (y, Y) /\ velt Re Y y 0 <> mv Re MM (fresh 2 2) (fun _ => t1) (VView 2 1 0) true 0).
Proof.
  split; [reflexivity|]. split.
  { intros k MM M X x fl H Nx. unfold GvModel.mult_vec. cbn [andb]. unfold new_vec. cbv zeta. rewrite Nx. now replace (m_cn M <? m_rn M) with true by (symmetry; apply Nat.ltb_lt; lia). }
  split.
  { intros k MM M X x fl H. unfold GvModel.mult_vec. cbn [andb]. destruct (Nat.eqb_spec (m_cn M) (w_n x)); cbn [andb negb]; [|reflexivity]. destruct (Nat.eqb_spec (m_rn M) (w_n x)); cbn [negb]; [lia|reflexivity]. }
  intros N. exists (fun p => match p with 2 => t1 | _ => t0 end).
  destruct (C69_mult_returning true Re (fun p => match p with 2 => t1 | _ => t0 end) (fresh 2 2) (fun _ => t1) (VView 2 1 0) (or_introl (conj eq_refl eq_refl)) ltac:(cbn; lia) eq_refl eq_refl (le_n 1)) as [y [Y [E [Ny V]]]].
  exists y, Y. split; [exact E|]. rewrite V by (cbn; lia). intros Q. apply N. apply (f_equal fst) in Q. unfold mv, mat_elt, vec_elt, maddr, vaddr in Q. cbn in Q. ring_simplify in Q. exact Q.
Qed.

(** ** Elementwise operations.  Iterating over a view visits its elements column after column. *)
Theorem C69_iteration : forall v r c, r < m_rn v -> c < m_cn v -> m_at v + snd (Nat.iter (r + c * m_rn v) (it_next v) it_begin) = maddr v r c.
Proof.
  intros v r c Hr Hc. rewrite it_ok by lia. cbn [snd]. rewrite Nat.mod_add, Nat.div_add, Nat.mod_small, Nat.div_small by lia. unfold maddr. lia.
Qed.
(** A &= B, A += B, A -= B, for views of every stride, B of the shape of A. *)
Theorem C69_assign : forall dbg ka kb a b MB MA, distinct a -> m_rn b = m_rn a -> m_cn b = m_cn a -> (kb = Cx -> ka = Cx) ->
  exists MA', assign t0 dbg ka kb a b MB MA = Ok MA' /\ (forall r c, r < m_rn a -> c < m_cn a -> melt ka MA' a r c = melt kb MB b r c) /\ forall p, ~ inview ka a p -> MA' p = MA p.
Proof.
  intros dbg ka kb a b MB MA Di R C K. unfold assign. rewrite R, C, !Nat.eqb_refl. cbn [andb negb]. rewrite andb_false_r.
  assert (PJ : forall z, (ka = Re -> snd z = t0) -> proj t0 ka z = z) by (intros; now apply proj_val).
  assert (VB : forall r c, ka = Re -> snd (melt kb MB b r c) = t0) by (intros r c Q; destruct kb; [reflexivity|specialize (K eq_refl); congruence]).
  destruct (rangeEq a b && isContiguous b)%bool eqn:E; eexists; (split; [reflexivity|]).
  - apply andb_true_iff in E. destruct E as [E Cb]. unfold rangeEq in E. rewrite !andb_true_iff, !Nat.eqb_eq in E. destruct E as [[[E1 E2] E3] E4]. apply contig_b in Cb.
    assert (Ca : contiguous a). { unfold contiguous, column_major, row_major in *. rewrite E1, E2, E3, E4. exact Cb. }
    destruct (ptr_ok t0 ka kb a b (fun _ y => y) MB MA Ca R C (eq_sym E2) (eq_sym E4)) as [V F]. cbn zeta in *. split; [|exact F]. intros r c Hr Hc. rewrite V by assumption. apply PJ. apply VB.
  - destruct (view_ok t0 ka kb a b (fun _ y => y) MB MA Di R C) as [V F]. cbn zeta in *. split; [|exact F]. intros r c Hr Hc. rewrite V by assumption. apply PJ. apply VB.
Qed.
Theorem C69_add_subtract : forall dbg k a b MB MA, distinct a -> m_rn b = m_rn a -> m_cn b = m_cn a ->
  (exists MA', addsub t0 t1 tadd tmul tsub topp false dbg k a b MB MA = Ok MA' /\ (forall r c, r < m_rn a -> c < m_cn a -> melt k MA' a r c = zadd (melt k MA a r c) (melt k MB b r c)) /\ forall p, ~ inview k a p -> MA' p = MA p) /\
  (exists MA', addsub t0 t1 tadd tmul tsub topp true dbg k a b MB MA = Ok MA' /\ (forall r c, r < m_rn a -> c < m_cn a -> melt k MA' a r c = zsub (melt k MA a r c) (melt k MB b r c)) /\ forall p, ~ inview k a p -> MA' p = MA p).
Proof.
  intros dbg k a b MB MA Di R C.
  assert (G : forall minus, exists MA', addsub t0 t1 tadd tmul tsub topp minus dbg k a b MB MA = Ok MA' /\ (forall r c, r < m_rn a -> c < m_cn a -> melt k MA' a r c = (if minus then zsub else zadd) (melt k MA a r c) (melt k MB b r c)) /\ forall p, ~ inview k a p -> MA' p = MA p).
  { intros minus. unfold addsub. rewrite R, C, !Nat.eqb_refl. cbn [andb negb]. rewrite andb_false_r.
    destruct (rangeEq b a && isContiguous b)%bool eqn:E; eexists; (split; [reflexivity|]).
    - apply andb_true_iff in E. destruct E as [E Cb]. unfold rangeEq in E. rewrite !andb_true_iff, !Nat.eqb_eq in E. destruct E as [[[E1 E2] E3] E4]. apply contig_b in Cb.
      assert (Ca : contiguous a). { unfold contiguous, column_major, row_major in *. rewrite <- E1, <- E2, <- E3, <- E4. exact Cb. }
      unfold daxpy.
      destruct (places_ok t0 k a (fun i old => tadd old (tmul (if minus then topp t1 else t1) (MB (rptr k (m_at b) + i)))) MA Ca) as [V F]. cbn zeta in *. split; [|exact F].
      intros r c Hr Hc. rewrite V by assumption. unfold mat_elt. set (q := r * m_rs a + c * m_cs a).
      assert (Eb : maddr b r c = m_at b + q) by (unfold maddr, q; rewrite E2, E4; lia). rewrite Eb.
      destruct k; cbn [elt rptr].
      + apply zeq; destruct minus; unfold zplus, zminus; cbn [fst snd]; ring.
      + replace (2 * (m_at b + q)) with (2 * m_at b + 2 * q) by lia. replace (S (2 * m_at b + 2 * q)) with (2 * m_at b + S (2 * q)) by lia.
        apply zeq; destruct minus; unfold zplus, zminus; cbn [fst snd]; ring.
    - destruct (view_ok t0 k k a b (if minus then zsub else zadd) MB MA Di R C) as [V F]. cbn zeta in *. split; [|exact F]. intros r c Hr Hc. rewrite V by assumption.
      apply proj_val. intros ->. unfold mat_elt. destruct minus; unfold zplus, zminus; cbn [elt fst snd]; ring. }
  split; [exact (G false)|exact (G true)].
Qed.
(** A *= x and A /= x. *)
Theorem C69_scale : forall k a fac MA, distinct a ->
  let MA' := mult_real t0 tadd tmul tsub k a fac MA in
  (forall r c, r < m_rn a -> c < m_cn a -> melt k MA' a r c = zmul (zre fac) (melt k MA a r c)) /\ forall p, ~ inview k a p -> MA' p = MA p.
Proof.
  intros k a fac MA Di. cbn zeta. unfold mult_real. destruct (isContiguous a) eqn:E.
  - apply contig_b in E. unfold dscal. destruct (places_ok t0 k a (fun i old => tmul fac old) MA E) as [V F]. cbn zeta in *. split; [|exact F].
    intros r c Hr Hc. rewrite V by assumption. unfold mat_elt. destruct k; cbn [elt]; apply zeq; unfold ztimes; cbn [fst snd zreal]; ring.
  - destruct (view_ok t0 k k a a (fun x _ => zmul x (zre fac)) MA MA Di eq_refl eq_refl) as [V F]. cbn zeta in *. split; [|exact F]. intros r c Hr Hc. rewrite V by assumption.
    rewrite proj_val. { apply (zmul_comm t0 t1 tadd tmul tsub topp RT). } intros ->. unfold mat_elt, ztimes. cbn [elt fst snd zreal]. ring.
Qed.
Theorem C69_scale_complex : forall a fac MA, distinct a ->
  let MA' := mult_cplx t0 tadd tmul tsub a fac MA in
  (forall r c, r < m_rn a -> c < m_cn a -> melt Cx MA' a r c = zmul fac (melt Cx MA a r c)) /\ forall p, ~ inview Cx a p -> MA' p = MA p.
Proof.
  intros a fac MA Di. cbn zeta. unfold mult_cplx. destruct (view_ok t0 Cx Cx a a (fun x _ => zmul x fac) MA MA Di eq_refl eq_refl) as [V F]. cbn zeta in *. split; [|exact F].
  intros r c Hr Hc. rewrite V by assumption. cbn [proj]. apply (zmul_comm t0 t1 tadd tmul tsub topp RT).
Qed.
(** Dividing is dividing both parts (0 is the imaginary part of a real element, before and after). *)
Theorem C69_divide : forall k a fac MA, distinct a ->
  let MA' := div_real t0 tdiv k a fac MA in
  (forall r c, r < m_rn a -> c < m_cn a -> fst (melt k MA' a r c) = tdiv (fst (melt k MA a r c)) fac /\ (k = Cx -> snd (melt k MA' a r c) = tdiv (snd (melt k MA a r c)) fac)) /\ forall p, ~ inview k a p -> MA' p = MA p.
Proof.
  intros k a fac MA Di. cbn zeta. unfold div_real. destruct (isContiguous a) eqn:E.
  - apply contig_b in E. destruct (places_ok t0 k a (fun i old => tdiv old fac) MA E) as [V F]. cbn zeta in *. split; [|exact F].
    intros r c Hr Hc. rewrite V by assumption. unfold mat_elt. destruct k; cbn [elt fst snd]; split; (reflexivity || discriminate).
  - destruct (view_ok t0 k k a a (fun x _ => (tdiv (fst x) fac, tdiv (snd x) fac)) MA MA Di eq_refl eq_refl) as [V F]. cbn zeta in *. split; [|exact F]. intros r c Hr Hc. rewrite V by assumption.
    destruct k; cbn [proj fst snd]; split; (reflexivity || discriminate).
Qed.

(** ** Vector views: v &= w, v += w, v -= w, v *= x, v /= x. *)
Lemma vec_ok : forall ka kb a b bs f MB MA, 1 <= w_s a -> bs = w_s b ->
  let MA' := vapply t0 ka kb a b bs f MB MA in
  (forall i, i < w_n a -> velt ka MA' a i = proj t0 ka (f (velt ka MA a i) (velt kb MB b i))) /\ forall p, ~ invec ka a p -> MA' p = MA p.
Proof.
  intros ka kb a b bs f MB MA Sa ->. cbn zeta. unfold vapply, vec_loop. replace (w_s a =? 0) with false by (symmetry; apply Nat.eqb_neq; lia).
  destruct (each_wr t0 ka (w_n a) (fun i => w_at a + i * w_s a) (fun i old => f old (elt t0 kb MB (w_at b + i * w_s b))) MA ltac:(cbv beta; intros; nia)) as [V F]. cbn zeta in *.
  split; [exact V|]. intros p N. apply F. intros i Hi P. apply N. exists i. split; [exact Hi|exact P].
Qed.
(** A vector with stride 1 as a matrix of one column. *)
Definition vm (a : vview) : mview := MView (w_n a) 1 1 (w_n a) (w_at a).
Lemma vm_elt : forall k m a i, w_s a = 1 -> velt k m a i = melt k m (vm a) i 0.
Proof. intros k m a i S. unfold vec_elt, mat_elt, vaddr, maddr, vm. cbn [m_at m_rs m_cs]. rewrite S. f_equal. lia. Qed.
Lemma vm_in : forall k a p, w_s a = 1 -> inview k (vm a) p -> invec k a p.
Proof. intros k a p S [r [c [Hr [Hc P]]]]. cbn [vm m_rn m_cn] in *. exists r. split; [exact Hr|]. unfold vaddr, maddr, vm in *. cbn [m_at m_rs m_cs] in P. rewrite S. replace (w_at a + r * 1) with (w_at a + r * 1 + c * w_n a) by nia. exact P. Qed.
Lemma vm_contig : forall a, contiguous (vm a).
Proof. intros a. left. split; reflexivity. Qed.
Theorem C69_vector_assign : forall dbg ka kb a b MB MA, 1 <= w_s a -> w_n b = w_n a -> (kb = Cx -> ka = Cx) ->
  exists MA', vassign t0 dbg ka kb a b MB MA = Ok MA' /\ (forall i, i < w_n a -> velt ka MA' a i = velt kb MB b i) /\ forall p, ~ invec ka a p -> MA' p = MA p.
Proof.
  intros dbg ka kb a b MB MA Sa N K. unfold vassign. rewrite N, Nat.eqb_refl. cbn [negb]. rewrite andb_false_r.
  assert (VB : forall i, proj t0 ka (velt kb MB b i) = velt kb MB b i). { intros i. apply proj_val. intros Q. destruct kb; [reflexivity|specialize (K eq_refl); congruence]. }
  destruct (Nat.eqb_spec (w_s b) 1) as [S|S]; eexists; (split; [reflexivity|]).
  - destruct (vec_ok ka kb a b 1 (fun _ y => y) MB MA Sa (eq_sym S)) as [V F]. cbn zeta in *. split; [|exact F]. intros i Hi. rewrite V by exact Hi. apply VB.
  - destruct (vec_ok ka kb a b (w_s b) (fun _ y => y) MB MA Sa eq_refl) as [V F]. cbn zeta in *. split; [|exact F]. intros i Hi. rewrite V by exact Hi. apply VB.
Qed.
Theorem C69_vector_add_subtract : forall dbg a b MB MA, 1 <= w_s a -> w_n b = w_n a ->
  (exists MA', vaddsub t0 t1 tadd tmul tsub topp false dbg a b MB MA = Ok MA' /\ (forall i, i < w_n a -> velt Re MA' a i = zadd (velt Re MA a i) (velt Re MB b i)) /\ forall p, ~ invec Re a p -> MA' p = MA p) /\
  (exists MA', vaddsub t0 t1 tadd tmul tsub topp true dbg a b MB MA = Ok MA' /\ (forall i, i < w_n a -> velt Re MA' a i = zsub (velt Re MA a i) (velt Re MB b i)) /\ forall p, ~ invec Re a p -> MA' p = MA p).
Proof.
  intros dbg a b MB MA Sa N.
  assert (G : forall minus, exists MA', vaddsub t0 t1 tadd tmul tsub topp minus dbg a b MB MA = Ok MA' /\ (forall i, i < w_n a -> velt Re MA' a i = (if minus then zsub else zadd) (velt Re MA a i) (velt Re MB b i)) /\ forall p, ~ invec Re a p -> MA' p = MA p).
  { intros minus. unfold vaddsub. cbv zeta. rewrite N, Nat.eqb_refl. cbn [negb]. rewrite andb_false_r.
    assert (PJ : forall i, proj t0 Re ((if minus then zsub else zadd) (velt Re MA a i) (velt Re MB b i)) = (if minus then zsub else zadd) (velt Re MA a i) (velt Re MB b i)).
    { intros i. apply proj_val. intros _. unfold vec_elt. destruct minus; unfold zplus, zminus; cbn [elt fst snd]; ring. }
    destruct (Nat.eqb_spec (w_s b) 1) as [S|S]; [destruct (Nat.eqb_spec (w_s a) 1) as [S'|S']|]; eexists; (split; [reflexivity|]).
    - unfold daxpy. destruct (places_ok t0 Re (vm a) (fun i old => tadd old (tmul (if minus then topp t1 else t1) (MB (w_at b + i)))) MA (vm_contig a)) as [V F]. cbn zeta in V, F.
      replace (rsize Re (mdim (vm a))) with (w_n a) in V, F by (cbn [rsize]; unfold mdim, vm; cbn [m_rn m_cn]; lia). cbn [rptr] in V, F. change (m_at (vm a)) with (w_at a) in V, F. split.
      + intros i Hi. rewrite (vm_elt _ _ a i S'). rewrite (V i 0) by (cbn [vm m_rn m_cn]; lia). unfold vec_elt, maddr, vaddr. cbn [vm m_at m_rs m_cs elt]. rewrite S, S'. cbn [Nat.mul]. rewrite !Nat.mul_1_r, !Nat.add_0_r.
        apply zeq; destruct minus; unfold zplus, zminus; cbn [fst snd]; ring.
      + intros p Np. apply F. intros Q. apply Np. now apply vm_in.
    - destruct (vec_ok Re Re a b 1 (if minus then zsub else zadd) MB MA Sa (eq_sym S)) as [V F]. cbn zeta in *. split; [|exact F]. intros i Hi. rewrite V by exact Hi. apply PJ.
    - destruct (vec_ok Re Re a b (w_s b) (if minus then zsub else zadd) MB MA Sa eq_refl) as [V F]. cbn zeta in *. split; [|exact F]. intros i Hi. rewrite V by exact Hi. apply PJ. }
  split; [exact (G false)|exact (G true)].
Qed.
Theorem C69_vector_scale : forall k a fac MA, 1 <= w_s a ->
  let MA' := vmult_real t0 tadd tmul tsub k a fac MA in
  (forall i, i < w_n a -> velt k MA' a i = zmul (zre fac) (velt k MA a i)) /\ forall p, ~ invec k a p -> MA' p = MA p.
Proof.
  intros k a fac MA Sa. cbn zeta. unfold vmult_real. destruct (Nat.eqb_spec (w_s a) 1) as [S|S].
  - unfold dscal. destruct (places_ok t0 k (vm a) (fun i old => tmul fac old) MA (vm_contig a)) as [V F]. cbn zeta in V, F.
    replace (mdim (vm a)) with (w_n a) in V, F by (unfold mdim, vm; cbn [m_rn m_cn]; lia). change (m_at (vm a)) with (w_at a) in V, F. split.
    + intros i Hi. rewrite !(vm_elt _ _ a i S). rewrite (V i 0) by (cbn [vm m_rn m_cn]; lia). unfold mat_elt. destruct k; cbn [elt]; apply zeq; unfold ztimes; cbn [fst snd zreal]; ring.
    + intros p Np. apply F. intros Q. apply Np. now apply vm_in.
  - destruct (vec_ok k k a a (w_s a) (fun x _ => zmul x (zre fac)) MA MA Sa eq_refl) as [V F]. cbn zeta in *. split; [|exact F]. intros i Hi. rewrite V by exact Hi.
    rewrite proj_val. { apply (zmul_comm t0 t1 tadd tmul tsub topp RT). } intros ->. unfold vec_elt, ztimes. cbn [elt fst snd zreal]. ring.
Qed.
(** Division of a vector by zero throws, and the vector is unchanged. *)
Theorem C69_vector_divide : forall k a fac MA, 1 <= w_s a ->
  (fac = t0 -> vdiv_real t0 tdiv tzero k a fac MA = Err) /\
  (fac <> t0 -> exists MA', vdiv_real t0 tdiv tzero k a fac MA = Ok MA' /\
     (forall i, i < w_n a -> fst (velt k MA' a i) = tdiv (fst (velt k MA a i)) fac /\ (k = Cx -> snd (velt k MA' a i) = tdiv (snd (velt k MA a i)) fac)) /\ forall p, ~ invec k a p -> MA' p = MA p).
Proof.
  intros k a fac MA Sa. split; intros Z; unfold vdiv_real.
  - now rewrite (proj2 (TZ fac) Z).
  - destruct (tzero fac) eqn:Q. { apply TZ in Q. contradiction. }
    destruct (Nat.eqb_spec (w_s a) 1) as [S|S]; eexists; (split; [reflexivity|]).
    + destruct (places_ok t0 k (vm a) (fun i old => tdiv old fac) MA (vm_contig a)) as [V F]. cbn zeta in V, F.
      replace (mdim (vm a)) with (w_n a) in V, F by (unfold mdim, vm; cbn [m_rn m_cn]; lia). change (m_at (vm a)) with (w_at a) in V, F. split.
      * intros i Hi. rewrite !(vm_elt _ _ a i S). rewrite (V i 0) by (cbn [vm m_rn m_cn]; lia). unfold mat_elt. destruct k; cbn [elt fst snd]; split; (reflexivity || discriminate).
      * intros p Np. apply F. intros P. apply Np. now apply vm_in.
    + destruct (vec_ok k k a a (w_s a) (fun x _ => (tdiv (fst x) fac, tdiv (snd x) fac)) MA MA Sa eq_refl) as [V F]. cbn zeta in *. split; [|exact F]. intros i Hi. rewrite V by exact Hi.
      destruct k; cbn [proj fst snd]; split; (reflexivity || discriminate).
Qed.
End Props.

(** The product of a complex 2x3 matrix, seen transposed, with a real one, into columns 1 and 2 of a matrix of 4 columns: the
    hypotheses are met and the result is what the numbers say. *)
Section Ex.
Let Zg (dbg : bool) := gemm 0%Z 1%Z Z.add Z.mul Z.sub Z.opp (fun x => Z.eqb x 0) dbg.
Let MA : mem Z := fun p => nth p [1; 2; 0; 1; -1; 0; 2; 0; 1; 1; 0; -3]%Z 0%Z.
Let MB : mem Z := fun p => nth p [1; 2; 3; -1]%Z 0%Z.
Let A : mview := transpose (fresh 2 3).
Let C : mview := MView 3 1 2 3 3.
Example C69_nonvacuous :
  columns true (fresh 3 4) 1 3 = Ok C /\ contiguous A /\ contiguous (fresh 2 2) /\ contiguous C /\ distinct C /\
  distinct (MView 2 1 2 5 7) /\ ~ contiguous (MView 2 1 2 5 7) /\
  (forall usez garbage, exists MC', Zg true usez garbage Cx Re MA A MB (fresh 2 2) (fun _ => 5%Z) C 2%Z 1%Z = Ok MC' /\ mat_elt 0%Z Cx MC' C 0 1 = (11, 15)%Z /\ MC' 5 = 5%Z /\ MC' 18 = 5%Z).
Proof.
  assert (CA : contiguous A) by (right; split; reflexivity). assert (CB : contiguous (fresh 2 2)) by (left; split; reflexivity). assert (CC : contiguous C) by (left; split; reflexivity).
  split; [reflexivity|]. split; [exact CA|]. split; [exact CB|]. split; [exact CC|]. split; [now apply contig_distinct|].
  split. { intros r c r' c' Hr Hc Hr' Hc' E. unfold maddr in E. cbn in *. lia. } split. { unfold contiguous, column_major, row_major. cbn. lia. }
  intros usez garbage.
  destruct (C69_gemm 0%Z 1%Z Z.add Z.mul Z.sub Z.opp (fun x => Z.eqb x 0) InitialRing.Zth (fun x => Z.eqb_eq x 0) true usez garbage Cx Re MA A MB (fresh 2 2) (fun _ => 5%Z) C 2%Z 1%Z CA CB CC eq_refl eq_refl eq_refl ltac:(cbn; lia) ltac:(cbn; lia) ltac:(cbn; lia)) as [M [E [V F]]].
  exists M. split; [exact E|]. cbn [product_kind] in V, F. split; [rewrite (V 0 1) by (cbn; lia); reflexivity|]. split; apply F; intros [r [c [Hr [Hc P]]]]; cbn in *; lia.
Qed.
End Ex.
Print Assumptions C69_views. Print Assumptions C69_contiguous_slices. Print Assumptions C69_row_check_refuted. Print Assumptions C69_gemm. Print Assumptions C69_gemm_throws. Print Assumptions C69_product.
Print Assumptions C69_noncontiguous_refuted. Print Assumptions C69_matrix_vector. Print Assumptions C69_vector_operators. Print Assumptions C69_mult_returning. Print Assumptions C69_mult_returning_refuted.
Print Assumptions C69_iteration. Print Assumptions C69_assign. Print Assumptions C69_add_subtract. Print Assumptions C69_scale. Print Assumptions C69_scale_complex. Print Assumptions C69_divide.
Print Assumptions C69_vector_assign. Print Assumptions C69_vector_add_subtract. Print Assumptions C69_vector_scale. Print Assumptions C69_vector_divide. Print Assumptions C69_nonvacuous.
