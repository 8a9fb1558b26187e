(** Proofs about GvModel. *)
From Coq Require Import List Arith Bool Lia Ring.
From Verif Require Import Util BigSum GvSpec GvModel.
Import ListNotations.

Lemma contig_b : forall v, isContiguous v = true <-> contiguous v.
Proof.
  intros v. unfold isContiguous, isNormal, isTransposed, contiguous, column_major, row_major.
  rewrite orb_true_iff, !andb_true_iff, !Nat.eqb_eq. tauto.
Qed.
Lemma trans_b : forall v, isTransposed v = true <-> row_major v.
Proof. intros v. unfold isTransposed, row_major. rewrite andb_true_iff, !Nat.eqb_eq. tauto. Qed.
Lemma contig_not_trans : forall v, contiguous v -> isTransposed v = false -> column_major v.
Proof. intros v [H|H] N; [exact H|]. apply trans_b in H. congruence. Qed.
(** The offset of element (i,l) of a contiguous view, as BLAS finds it. *)
Lemma off_T : forall v i l, isTransposed v = true -> i * m_rs v + l * m_cs v = l + i * m_cn v.
Proof. intros v i l H. apply trans_b in H. destruct H as [A B]. rewrite A, B. lia. Qed.
Lemma off_N : forall v i l, contiguous v -> isTransposed v = false -> i * m_rs v + l * m_cs v = i + l * m_rn v.
Proof. intros v i l H N. destruct (contig_not_trans v H N) as [A B]. rewrite A, B. lia. Qed.
Lemma off_lt : forall v i l, contiguous v -> i < m_rn v -> l < m_cn v -> i * m_rs v + l * m_cs v < mdim v.
Proof. intros v i l [[A B]|[A B]] Hi Hl; rewrite A, B; unfold mdim; nia. Qed.
Lemma lin_inj : forall m i j i' j', i < m -> i' < m -> i + j * m = i' + j' * m -> i = i' /\ j = j'.
Proof. intros m i j i' j' H H' E. assert (j = j') by nia. subst. split; lia. Qed.
Lemma contig_distinct : forall v, contiguous v -> distinct v.
Proof.
  intros v [[A B]|[A B]] r c r' c' Hr Hc Hr' Hc' E; unfold maddr in E; rewrite A, B in E.
  - apply (lin_inj (m_rn v)); lia.
  - destruct (lin_inj (m_cn v) c r c' r'); lia.
Qed.
(** A contiguous view is one stretch. *)
Lemma contig_stretch : forall v o, contiguous v -> m_at v <= o < m_at v + mdim v -> exists r c, r < m_rn v /\ c < m_cn v /\ maddr v r c = o.
Proof.
  intros v o H Ho. unfold mdim in Ho. set (q := o - m_at v). assert (Hq : q < m_rn v * m_cn v) by (unfold q; lia).
  destruct H as [[A B]|[A B]].
  - exists (q mod m_rn v), (q / m_rn v). assert (m_rn v <> 0) by nia. pose proof (Nat.div_mod q (m_rn v) H). pose proof (Nat.mod_upper_bound q _ H).
    split; [lia|]. split; [apply Nat.div_lt_upper_bound; lia|]. unfold maddr. rewrite A, B. unfold q in *. nia.
  - exists (q / m_cn v), (q mod m_cn v). assert (m_cn v <> 0) by nia. pose proof (Nat.div_mod q (m_cn v) H). pose proof (Nat.mod_upper_bound q _ H).
    split; [apply Nat.div_lt_upper_bound; lia|]. split; [lia|]. unfold maddr. rewrite A, B. unfold q in *. nia.
Qed.
Lemma contig_addr : forall v r c, contiguous v -> r < m_rn v -> c < m_cn v -> exists q, q < mdim v /\ maddr v r c = m_at v + q.
Proof. intros v r c H Hr Hc. exists (r * m_rs v + c * m_cs v). split; [now apply off_lt|]. unfold maddr. lia. Qed.

Section Proofs.
Context {T : Type} (t0 t1 : T) (tadd tmul tsub : T -> T -> T) (topp : T -> T) (tzero : T -> bool).
Context (RT : ring_theory t0 t1 tadd tmul tsub topp eq).
Add Ring RGv : RT.
Context (TZ : forall x, tzero x = true <-> x = t0).
Notation rd := (elt t0).
Notation zadd := (zplus tadd). Notation zsub := (zminus tsub). Notation zmul := (ztimes tadd tmul tsub). Notation zre := (zreal t0).
Notation zsum := (zsum t0 tadd). Notation bs := (bsum t0 tadd).
Notation put := (@put T). Notation wr := (@wr T).

(* ---- memory ---- *)
Lemma put_eq : forall m p x, put m p x p = x.
Proof. intros. unfold GvModel.put. now rewrite Nat.eqb_refl. Qed.
Lemma put_ne : forall m p x q, q <> p -> put m p x q = m q.
Proof. intros. unfold GvModel.put. destruct (Nat.eqb_spec q p); [lia|reflexivity]. Qed.
Definition proj (k : vkind) (z : T * T) : T * T := match k with Re => (fst z, t0) | Cx => z end.
Lemma rd_wr_eq : forall k m o z, rd k (wr k m o z) o = proj k z.
Proof.
  intros [|] m o z; cbn [elt GvModel.wr proj].
  - now rewrite put_eq.
  - rewrite put_ne by lia. rewrite !put_eq. now destruct z.
Qed.
Lemma rd_wr_ne : forall k m o z o', o' <> o -> rd k (wr k m o z) o' = rd k m o'.
Proof. intros [|] m o z o' H; cbn [elt GvModel.wr]; repeat rewrite put_ne by lia; reflexivity. Qed.
Lemma wr_frame : forall k m o z p, ~ place k o p -> wr k m o z p = m p.
Proof. intros [|] m o z p H; cbn [place GvModel.wr] in *; repeat rewrite put_ne by tauto; reflexivity. Qed.
Lemma rd_ext : forall k m m' o, (forall p, place k o p -> m' p = m p) -> rd k m' o = rd k m o.
Proof. intros [|] m m' o H; cbn [elt place] in *; repeat rewrite H by tauto; reflexivity. Qed.
Lemma place_inj : forall k o o' p, place k o p -> place k o' p -> o = o'.
Proof. intros [|] o o' p; cbn [place]; lia. Qed.

Lemma each_put : forall n ad (g : nat -> T -> T) m, (forall i j, i < n -> j < n -> ad i = ad j -> i = j) ->
  (forall i, i < n -> each n (fun i m => put m (ad i) (g i (m (ad i)))) m (ad i) = g i (m (ad i))) /\
  (forall p, (forall i, i < n -> p <> ad i) -> each n (fun i m => put m (ad i) (g i (m (ad i)))) m p = m p).
Proof.
  induction n as [|n IH]; intros ad g m Inj; [split; [intros; lia|reflexivity]|].
  destruct (IH ad g m ltac:(intros; apply Inj; lia)) as [V F]. cbn [each]. split.
  - intros i Hi. destruct (Nat.eq_dec i n) as [->|Ne].
    + rewrite put_eq. f_equal. apply F. intros j Hj E. assert (n = j) by (apply Inj; [lia|lia|exact E]). lia.
    + rewrite put_ne. { apply V. lia. } intros E. apply Ne. apply Inj; [lia|lia|exact E].
  - intros p Hp. rewrite put_ne by (apply Hp; lia). apply F. intros; apply Hp; lia.
Qed.
Lemma each_wr : forall k n ad (g : nat -> T * T -> T * T) m, (forall i j, i < n -> j < n -> ad i = ad j -> i = j) ->
  let m' := each n (fun i m => wr k m (ad i) (g i (rd k m (ad i)))) m in
  (forall i, i < n -> rd k m' (ad i) = proj k (g i (rd k m (ad i)))) /\
  (forall p, (forall i, i < n -> ~ place k (ad i) p) -> m' p = m p).
Proof.
  induction n as [|n IH]; intros ad g m Inj; [split; [intros; lia|reflexivity]|].
  destruct (IH ad g m ltac:(intros; apply Inj; lia)) as [V F]. cbn zeta in *. cbn [each]. split.
  - intros i Hi. destruct (Nat.eq_dec i n) as [->|Ne].
    + rewrite rd_wr_eq. do 2 f_equal. apply rd_ext. intros p Hp. apply F. intros j Hj Q. assert (E := place_inj _ _ _ _ Hp Q). assert (n = j) by (apply Inj; [lia|lia|exact E]). lia.
    + rewrite rd_wr_ne. { apply V. lia. } intros E. apply Ne. apply Inj; [lia|lia|exact E].
  - intros p Hp. rewrite wr_frame by (apply Hp; lia). apply F. intros; apply Hp; lia.
Qed.
Lemma each_ext : forall S n (f g : nat -> S -> S) s, (forall i s, i < n -> f i s = g i s) -> each n f s = each n g s.
Proof. induction n as [|n IH]; intros f g s H; cbn [each]; [reflexivity|]. rewrite (IH f g) by (intros; apply H; lia). apply H. lia. Qed.

(* ---- sums ---- *)
Lemma zsum_parts : forall n f, zsum n f = (bs n (fun i => fst (f i)), bs n (fun i => snd (f i))).
Proof. induction n as [|n IH]; intros f; cbn [GvSpec.zsum bsum]; [reflexivity|]. unfold GvSpec.zsum in IH. rewrite IH. reflexivity. Qed.
Lemma zsum_ext : forall n f g, (forall i, i < n -> f i = g i) -> zsum n f = zsum n g.
Proof. intros n f g H. unfold GvSpec.zsum. now apply bsum_ext. Qed.
Lemma b_ext : forall n f g, (forall i, i < n -> f i = g i) -> bs n f = bs n g.
Proof. exact (bsum_ext t0 tadd). Qed.
Lemma b_zero : forall n f, (forall i, i < n -> f i = t0) -> bs n f = t0.
Proof. exact (bsum_zero t0 t1 tadd tmul tsub topp RT). Qed.
Lemma b_add : forall n f g, bs n (fun i => tadd (f i) (g i)) = tadd (bs n f) (bs n g).
Proof. exact (bsum_add t0 t1 tadd tmul tsub topp RT). Qed.
Lemma b_mul : forall n c f, bs n (fun i => tmul c (f i)) = tmul c (bs n f).
Proof. exact (bsum_mul_l t0 t1 tadd tmul tsub topp RT). Qed.
Lemma zeq : forall a b : T * T, fst a = fst b -> snd a = snd b -> a = b.
Proof. intros [] []; cbn. now intros -> ->. Qed.
Lemma zmul_comm : forall x y, zmul x y = zmul y x.
Proof. intros. apply zeq; unfold ztimes; cbn [fst snd]; ring. Qed.
(** Real operands give a real result. *)
Lemma snd_rd_re : forall m o, snd (rd Re m o) = t0.
Proof. reflexivity. Qed.
Lemma sum_re : forall n f g, (forall i, i < n -> snd (f i) = t0) -> (forall i, i < n -> snd (g i) = t0) -> snd (zsum n (fun i => zmul (f i) (g i))) = t0.
Proof.
  intros n f g Hf Hg. rewrite zsum_parts. cbn [snd]. apply b_zero. intros i Hi. unfold ztimes. cbn [snd]. rewrite Hf, Hg by lia. ring.
Qed.
Definition val (k : vkind) (z : T * T) : Prop := k = Re -> snd z = t0.
Lemma proj_val : forall k z, val k z -> proj k z = z.
Proof. intros [|] [x y] H; cbn [proj]; [|reflexivity]. specialize (H eq_refl). cbn [fst snd] in *. now rewrite H. Qed.

(* ---- gemm_wrapper ---- *)
Definition lin (alpha beta : T) (n : nat) (f g : nat -> T * T) (old : T * T) : T * T :=
  zadd (zmul (zre alpha) (zsum n (fun l => zmul (f l) (g l)))) (zmul (zre beta) old).
Lemma lin_val : forall k alpha beta n ma mb mc oa ob oc, val k (lin alpha beta n (fun l => rd k ma (oa l)) (fun l => rd k mb (ob l)) (rd k mc oc)).
Proof.
  intros k alpha beta n ma mb mc oa ob oc ->. unfold lin, zplus. cbn [snd]. unfold ztimes at 1 3. cbn [snd zreal].
  rewrite sum_re by (intros; apply snd_rd_re). cbn [elt snd fst zreal]. ring.
Qed.
Lemma bz_eq : forall alpha beta s old, (if tzero beta then zmul (zre alpha) s else zadd (zmul (zre alpha) s) (zmul (zre beta) old)) = zadd (zmul (zre alpha) s) (zmul (zre beta) old).
Proof. intros. destruct (tzero beta) eqn:E; [|reflexivity]. apply TZ in E. subst. apply zeq; unfold zplus, ztimes; cbn [fst snd zreal]; ring. Qed.
Notation gemm_wrapper := (gemm_wrapper t0 tadd tmul tsub tzero).

Lemma wrapper_ok : forall vk A B alpha beta MA a MB b MC c, contiguous A -> contiguous B -> m_cn A = m_rn B -> 1 <= m_rn A -> 1 <= m_cn A -> 1 <= m_cn B ->
  exists MC', gemm_wrapper vk (isTransposed A) (isTransposed B) (m_rn A) (m_cn B) (m_cn A) alpha MA a MB b beta MC c = Ok MC' /\
    (forall i j, i < m_rn A -> j < m_cn B ->
       rd vk MC' (c + (i + j * m_rn A)) =
       lin alpha beta (m_cn A) (fun l => rd vk MA (a + (i * m_rs A + l * m_cs A))) (fun l => rd vk MB (b + (l * m_rs B + j * m_cs B))) (rd vk MC (c + (i + j * m_rn A)))) /\
    (forall p, (forall q, q < m_rn A * m_cn B -> ~ place vk (c + q) p) -> MC' p = MC p).
Proof.
  intros vk A B alpha beta MA a MB b MC c CA CB KK Hm Hk Hn.
  unfold GvModel.gemm_wrapper, blas_gemm. set (m := m_rn A) in *. set (n := m_cn B) in *. set (k := m_cn A) in *.
  assert (L1 : ((if isTransposed A then k else m) <? max 1 (if isTransposed A then k else m)) = false) by (apply Nat.ltb_ge; destruct (isTransposed A); lia).
  assert (L2 : ((if isTransposed B then n else k) <? max 1 (if isTransposed B then n else k)) = false) by (apply Nat.ltb_ge; destruct (isTransposed B); lia).
  assert (L3 : (m <? max 1 m) = false) by (apply Nat.ltb_ge; lia).
  rewrite L1, L2, L3. cbn [orb].
  set (g := fun t old => lin alpha beta k (fun l => rd vk MA (a + (t mod m * m_rs A + l * m_cs A))) (fun l => rd vk MB (b + (l * m_rs B + t / m * m_cs B))) old).
  assert (Dm : forall t, t mod m + t / m * m = t). { intros t. pose proof (Nat.div_mod t m ltac:(lia)). lia. }
  eexists. split; [reflexivity|].
  erewrite each_ext.
  2:{ intros t s Ht. instantiate (1 := fun t s => wr vk s (c + t) (g t (rd vk s (c + t)))). cbv beta. rewrite Dm, bz_eq. unfold g, lin. do 3 f_equal.
      apply zsum_ext. intros l Hl. apply f_equal2; apply f_equal, f_equal.
      - destruct (isTransposed A) eqn:E; [symmetry; now apply off_T|symmetry; now apply off_N].
      - destruct (isTransposed B) eqn:E; [rewrite off_T by exact E; reflexivity|rewrite off_N by assumption; now rewrite <- KK]. }
  destruct (each_wr vk (m * n) (fun t => c + t) g MC ltac:(cbv beta; intros; lia)) as [V F]. cbn zeta in *. split.
  - intros i j Hi Hj. assert (Ht : i + j * m < m * n) by nia. rewrite (V _ Ht).
    assert (Ei : (i + j * m) mod m = i) by (rewrite Nat.mod_add by lia; now apply Nat.mod_small).
    assert (Ej : (i + j * m) / m = j) by (rewrite Nat.div_add by lia; rewrite Nat.div_small by lia; reflexivity).
    rewrite proj_val; unfold g; rewrite Ei, Ej; [reflexivity|]. apply (lin_val vk alpha beta k MA MB MC (fun l => a + (i * m_rs A + l * m_cs A)) (fun l => b + (l * m_rs B + j * m_cs B))).
  - exact F.
Qed.
(** The real one, in real numbers. *)
Lemma wrapper_re : forall A B alpha beta MA a MB b MC c, contiguous A -> contiguous B -> m_cn A = m_rn B -> 1 <= m_rn A -> 1 <= m_cn A -> 1 <= m_cn B ->
  exists MC', gemm_wrapper Re (isTransposed A) (isTransposed B) (m_rn A) (m_cn B) (m_cn A) alpha MA a MB b beta MC c = Ok MC' /\
    (forall i j, i < m_rn A -> j < m_cn B ->
       MC' (c + (i + j * m_rn A)) =
       tadd (tmul alpha (bs (m_cn A) (fun l => tmul (MA (a + (i * m_rs A + l * m_cs A))) (MB (b + (l * m_rs B + j * m_cs B)))))) (tmul beta (MC (c + (i + j * m_rn A))))) /\
    (forall p, (forall q, q < m_rn A * m_cn B -> p <> c + q) -> MC' p = MC p).
Proof.
  intros A B alpha beta MA a MB b MC c CA CB KK Hm Hk Hn.
  destruct (wrapper_ok Re A B alpha beta MA a MB b MC c CA CB KK Hm Hk Hn) as [M [E [V F]]]. exists M. split; [exact E|]. split; [|exact F].
  intros i j Hi Hj. specialize (V i j Hi Hj). apply (f_equal fst) in V. cbn [elt fst] in V. rewrite V. unfold lin, zplus, ztimes at 1 3. cbn [fst snd zreal]. rewrite zsum_parts. cbn [fst snd].
  rewrite (b_ext _ (fun l => fst (zmul (MA (a + (i * m_rs A + l * m_cs A)), t0) (MB (b + (l * m_rs B + j * m_cs B)), t0)))
             (fun l => tmul (MA (a + (i * m_rs A + l * m_cs A))) (MB (b + (l * m_rs B + j * m_cs B))))).
  2:{ intros l Hl. unfold ztimes. cbn [fst snd]. ring. }
  ring.
Qed.

(* ---- the emulator ---- *)
Lemma copy_in : forall (C : mem T) c p r n buf, (forall i, i < n -> cplxToRealBuf C c p r n buf (r + i) = C (c + p + 2 * i)) /\
  (forall q, (q < r \/ r + n <= q) -> cplxToRealBuf C c p r n buf q = buf q).
Proof.
  intros C c p r n buf. unfold cplxToRealBuf. destruct (each_put n (fun i => r + i) (fun i _ => C (c + p + 2 * i)) buf ltac:(cbv beta; intros; lia)) as [V F]. split.
  - exact V.
  - intros q Hq. apply F. intros i Hi. lia.
Qed.
Lemma copy_out : forall (buf : mem T) r n C c p, (forall i, i < n -> realBufToCplx buf r n C c p (c + p + 2 * i) = buf (r + i)) /\
  (forall q, (forall i, i < n -> q <> c + p + 2 * i) -> realBufToCplx buf r n C c p q = C q).
Proof.
  intros buf r n C c p. unfold realBufToCplx. destruct (each_put n (fun i => c + p + 2 * i) (fun i _ => buf (r + i)) C ltac:(cbv beta; intros; lia)) as [V F]. split; [exact V|exact F].
Qed.
(** The part of an element a task takes. *)
Definition prt (k : vkind) (m : mem T) (part : nat) (o : nat) : T := match k with Re => m o | Cx => m (2 * o + part) end.
Notation emu_task := (emu_task t0 tadd tmul tsub tzero).
Notation emu_tasks := (emu_tasks t0 tadd tmul tsub tzero).
Definition cbuf (ka kb : vkind) (A B : mview) : nat := 0 + (if isCplx ka then mdim A else 0) + (if isCplx kb then mdim B else 0).
Lemma task_ok : forall ka kb MA A MB B C t d MC, contiguous A -> contiguous B -> m_cn A = m_rn B -> 1 <= m_rn A -> 1 <= m_cn A -> 1 <= m_cn B -> mdim C = m_rn A * m_cn B ->
  copyToC t = false ->
  exists d', emu_task ka kb MA A MB B C t (d, MC) = Ok (d', MC) /\
    (forall i j, i < m_rn A -> j < m_cn B ->
       d' (cbuf ka kb A B + (i + j * m_rn A)) =
       tadd (tmul (talpha t) (bs (m_cn A) (fun l => tmul (prt ka MA (Apart t) (maddr A i l)) (prt kb MB (Bpart t) (maddr B l j)))))
         (tmul (tbeta t) (if copyFromC t then MC (2 * m_at C + Cpart t + 2 * (i + j * m_rn A)) else d (cbuf ka kb A B + (i + j * m_rn A))))).
Proof.
  intros ka kb MA A MB B C t d MC CA CB KK Hm Hk Hn HC NC. unfold GvModel.emu_task. cbv zeta. rewrite NC.
  set (bb := 0 + (if isCplx ka then mdim A else 0)). change (bb + (if isCplx kb then mdim B else 0)) with (cbuf ka kb A B). set (cb := cbuf ka kb A B).
  set (d1 := if isCplx ka then cplxToRealBuf MA (2 * m_at A) (Apart t) 0 (mdim A) d else d).
  set (d2 := if isCplx kb then cplxToRealBuf MB (2 * m_at B) (Bpart t) bb (mdim B) d1 else d1).
  set (d3 := if copyFromC t then cplxToRealBuf MC (2 * m_at C) (Cpart t) cb (mdim C) d2 else d2).
  destruct (wrapper_re A B (talpha t) (tbeta t) (if isCplx ka then d3 else MA) (if isCplx ka then 0 else m_at A) (if isCplx kb then d3 else MB) (if isCplx kb then bb else m_at B) d3 cb CA CB KK Hm Hk Hn) as [d' [E [V _]]].
  exists d'. split. { now rewrite E. }
  intros i j Hi Hj. rewrite (V i j Hi Hj). f_equal.
  - f_equal. apply b_ext. intros l Hl.
    assert (OA := off_lt A i l CA Hi Hl). assert (OB := off_lt B l j CB ltac:(lia) Hj).
    assert (D3 : forall q, q < cb -> d3 q = d2 q). { intros q Hq. unfold d3. destruct (copyFromC t); [|reflexivity]. apply copy_in. lia. }
    f_equal.
    + destruct ka; cbn [isCplx prt].
      * unfold maddr. f_equal. lia.
      * rewrite D3 by (unfold cb, cbuf; cbn [isCplx]; lia). unfold d2.
        assert (Q : forall q, q < mdim A -> d1 q = MA (2 * m_at A + Apart t + 2 * q)). { intros q Hq. unfold d1. cbn [isCplx]. apply (proj1 (copy_in MA (2 * m_at A) (Apart t) 0 (mdim A) d)). lia. }
        destruct (isCplx kb).
        { rewrite (proj2 (copy_in MB (2 * m_at B) (Bpart t) bb (mdim B) d1)) by (left; unfold bb; cbn [isCplx]; lia). rewrite Q by lia. f_equal. unfold maddr. lia. }
        { rewrite Q by lia. f_equal. unfold maddr. lia. }
    + destruct kb; cbn [isCplx prt].
      * unfold maddr. f_equal. lia.
      * rewrite D3 by (unfold cb, cbuf, bb; cbn [isCplx]; lia). unfold d2. cbn [isCplx].
        rewrite (proj1 (copy_in MB (2 * m_at B) (Bpart t) bb (mdim B) d1)) by lia. f_equal. unfold maddr. lia.
  - f_equal. unfold d3. destruct (copyFromC t).
    + apply (proj1 (copy_in MC (2 * m_at C) (Cpart t) cb (mdim C) d2)). rewrite HC. nia.
    + unfold d2. destruct kb; cbn [isCplx]; [|rewrite (proj2 (copy_in MB (2 * m_at B) (Bpart t) bb (mdim B) d1)) by (right; unfold cb, cbuf, bb; cbn [isCplx]; lia)];
        unfold d1; (destruct ka; cbn [isCplx]; [reflexivity|rewrite (proj2 (copy_in MA (2 * m_at A) (Apart t) 0 (mdim A) d)) by (right; unfold cb, cbuf; cbn [isCplx]; lia); reflexivity]).
Qed.
Lemma tocopy_ok : forall ka kb MA A MB B C t d MC, copyToC t = true ->
  exists MC', emu_task ka kb MA A MB B C t (d, MC) = Ok (d, MC') /\
    (forall q, q < mdim C -> MC' (2 * m_at C + Cpart t + 2 * q) = d (cbuf ka kb A B + q)) /\
    (forall p, (forall q, q < mdim C -> p <> 2 * m_at C + Cpart t + 2 * q) -> MC' p = MC p).
Proof.
  intros ka kb MA A MB B C t d MC H. unfold GvModel.emu_task. rewrite H. eexists. split; [reflexivity|].
  destruct (copy_out d (cbuf ka kb A B) (mdim C) MC (2 * m_at C) (Cpart t)) as [V F]. split; [exact V|exact F].
Qed.

Notation task_ab := (task_ab tzero). Notation task_a := (task_a t1). Notation task_c := (task_c t0).
Definition psum (ka kb : vkind) (MA : mem T) (A : mview) (MB : mem T) (B : mview) (pa pb i j : nat) : T :=
  bs (m_cn A) (fun l => tmul (prt ka MA pa (maddr A i l)) (prt kb MB pb (maddr B l j))).
Lemma ab_ok : forall ka kb MA A MB B C pa pb pc alpha beta d MC, contiguous A -> contiguous B -> m_cn A = m_rn B -> 1 <= m_rn A -> 1 <= m_cn A -> 1 <= m_cn B -> mdim C = m_rn A * m_cn B ->
  exists d', emu_task ka kb MA A MB B C (task_ab pa pb pc alpha beta) (d, MC) = Ok (d', MC) /\
    (forall i j, i < m_rn A -> j < m_cn B ->
       d' (cbuf ka kb A B + (i + j * m_rn A)) = tadd (tmul alpha (psum ka kb MA A MB B pa pb i j)) (tmul beta (MC (2 * m_at C + pc + 2 * (i + j * m_rn A))))).
Proof.
  intros ka kb MA A MB B C pa pb pc alpha beta d MC CA CB KK Hm Hk Hn HC.
  destruct (task_ok ka kb MA A MB B C (task_ab pa pb pc alpha beta) d MC CA CB KK Hm Hk Hn HC eq_refl) as [d' [E V]]. exists d'. split; [exact E|].
  intros i j Hi Hj. rewrite (V i j Hi Hj). cbn [talpha tbeta Apart Bpart Cpart copyFromC GvModel.task_ab]. unfold psum. f_equal.
  destruct (tzero beta) eqn:Z; cbn [negb]; [|reflexivity]. apply TZ in Z. subst. ring.
Qed.
Lemma a_ok : forall ka kb MA A MB B C pa pb pc alpha d MC, contiguous A -> contiguous B -> m_cn A = m_rn B -> 1 <= m_rn A -> 1 <= m_cn A -> 1 <= m_cn B -> mdim C = m_rn A * m_cn B ->
  exists d', emu_task ka kb MA A MB B C (task_a pa pb pc alpha) (d, MC) = Ok (d', MC) /\
    (forall i j, i < m_rn A -> j < m_cn B ->
       d' (cbuf ka kb A B + (i + j * m_rn A)) = tadd (tmul alpha (psum ka kb MA A MB B pa pb i j)) (d (cbuf ka kb A B + (i + j * m_rn A)))).
Proof.
  intros ka kb MA A MB B C pa pb pc alpha d MC CA CB KK Hm Hk Hn HC.
  destruct (task_ok ka kb MA A MB B C (task_a pa pb pc alpha) d MC CA CB KK Hm Hk Hn HC eq_refl) as [d' [E V]]. exists d'. split; [exact E|].
  intros i j Hi Hj. rewrite (V i j Hi Hj). cbn [talpha tbeta Apart Bpart Cpart copyFromC GvModel.task_a]. unfold psum. f_equal. ring.
Qed.
Notation common := product_kind.
Notation gemm_impl := (gemm_impl t0 t1 tadd tmul tsub topp tzero).
Notation melt := (mat_elt t0).
Lemma col_addr : forall C i j, column_major C -> maddr C i j = m_at C + (i + j * m_rn C).
Proof. intros C i j [A B]. unfold maddr. rewrite A, B. lia. Qed.

Lemma lin_parts : forall alpha beta n f g old, let S := zsum n (fun l => zmul (f l) (g l)) in
  lin alpha beta n f g old = (tadd (tmul alpha (fst S)) (tmul beta (fst old)), tadd (tmul alpha (snd S)) (tmul beta (snd old))).
Proof. intros alpha beta n f g old S. unfold lin. fold S. apply zeq; unfold zplus, ztimes; cbn [fst snd zreal]; ring. Qed.
Lemma b_minus : forall n f g, bs n (fun i => tsub (f i) (g i)) = tadd (bs n f) (topp (bs n g)).
Proof.
  intros n f g. transitivity (tadd (bs n f) (tmul (topp t1) (bs n g))); [|ring]. rewrite <- b_mul, <- b_add. apply b_ext. intros i _. ring.
Qed.
Lemma prod_CC : forall MA A MB B i j, zsum (m_cn A) (fun l => zmul (melt Cx MA A i l) (melt Cx MB B l j)) =
  (tadd (psum Cx Cx MA A MB B 0 0 i j) (topp (psum Cx Cx MA A MB B 1 1 i j)), tadd (psum Cx Cx MA A MB B 0 1 i j) (psum Cx Cx MA A MB B 1 0 i j)).
Proof.
  intros. rewrite zsum_parts. unfold psum. rewrite <- b_minus, <- b_add. unfold ztimes, mat_elt. cbn [elt fst snd prt].
  f_equal; apply b_ext; intros l _; rewrite <- !(Nat.add_1_r (2 * _)); rewrite ?Nat.add_0_r; ring.
Qed.
Lemma prod_RC : forall MA A MB B i j, zsum (m_cn A) (fun l => zmul (melt Re MA A i l) (melt Cx MB B l j)) =
  (psum Re Cx MA A MB B 0 0 i j, psum Re Cx MA A MB B 0 1 i j).
Proof.
  intros. rewrite zsum_parts. unfold psum. unfold ztimes, mat_elt. cbn [elt fst snd prt].
  f_equal; apply b_ext; intros l _; rewrite <- ?(Nat.add_1_r (2 * _)); rewrite ?Nat.add_0_r; ring.
Qed.
Lemma prod_CR : forall MA A MB B i j, zsum (m_cn A) (fun l => zmul (melt Cx MA A i l) (melt Re MB B l j)) =
  (psum Cx Re MA A MB B 0 0 i j, psum Cx Re MA A MB B 1 0 i j).
Proof.
  intros. rewrite zsum_parts. unfold psum. unfold ztimes, mat_elt. cbn [elt fst snd prt].
  f_equal; apply b_ext; intros l _; rewrite <- ?(Nat.add_1_r (2 * _)); rewrite ?Nat.add_0_r; ring.
Qed.
(** What the emulator has to leave in the memory of C, part by part. *)
Lemma parts_ok : forall ka kb MA A MB B MC C MC' alpha beta, column_major C -> m_rn A = m_rn C -> m_cn B = m_cn C ->
  (forall i j, i < m_rn A -> j < m_cn B -> MC' (2 * m_at C + 0 + 2 * (i + j * m_rn A)) =
     tadd (tmul alpha (fst (zsum (m_cn A) (fun l => zmul (melt ka MA A i l) (melt kb MB B l j))))) (tmul beta (MC (2 * m_at C + 0 + 2 * (i + j * m_rn A))))) ->
  (forall i j, i < m_rn A -> j < m_cn B -> MC' (2 * m_at C + 1 + 2 * (i + j * m_rn A)) =
     tadd (tmul alpha (snd (zsum (m_cn A) (fun l => zmul (melt ka MA A i l) (melt kb MB B l j))))) (tmul beta (MC (2 * m_at C + 1 + 2 * (i + j * m_rn A))))) ->
  forall i j, i < m_rn C -> j < m_cn C ->
    melt Cx MC' C i j = lin alpha beta (m_cn A) (fun l => melt ka MA A i l) (fun l => melt kb MB B l j) (melt Cx MC C i j).
Proof.
  intros ka kb MA A MB B MC C MC' alpha beta HC R1 R2 P0 P1 i j Hi Hj. rewrite lin_parts. specialize (P0 i j ltac:(lia) ltac:(lia)). specialize (P1 i j ltac:(lia) ltac:(lia)).
  set (Z := zsum (m_cn A) (fun l => zmul (melt ka MA A i l) (melt kb MB B l j))) in *. unfold mat_elt. cbn [elt fst snd]. rewrite (col_addr C i j HC). rewrite <- R1.
  replace (2 * (m_at C + (i + j * m_rn A))) with (2 * m_at C + 0 + 2 * (i + j * m_rn A)) by lia.
  replace (S (2 * m_at C + 0 + 2 * (i + j * m_rn A))) with (2 * m_at C + 1 + 2 * (i + j * m_rn A)) by lia.
  now rewrite P0, P1.
Qed.
Lemma outside : forall C p, contiguous C -> ~ inview Cx C p -> forall part q, part < 2 -> q < mdim C -> p <> 2 * m_at C + part + 2 * q.
Proof.
  intros C p HC N part q Hp Hq E. destruct (contig_stretch C (m_at C + q) HC ltac:(lia)) as [r [c [Hr [Hc Ea]]]]. apply N. exists r, c. split; [exact Hr|]. split; [exact Hc|].
  rewrite Ea. cbn [place]. lia.
Qed.
Lemma impl_ok : forall usez garbage ka kb MA A MB B MC C alpha beta, contiguous A -> contiguous B -> column_major C ->
  m_cn A = m_rn B -> m_rn A = m_rn C -> m_cn B = m_cn C -> 1 <= m_rn A -> 1 <= m_cn A -> 1 <= m_cn B ->
  exists MC', gemm_impl usez garbage ka kb MA A MB B MC C alpha beta = Ok MC' /\
    (forall i j, i < m_rn C -> j < m_cn C ->
       melt (common ka kb) MC' C i j = lin alpha beta (m_cn A) (fun l => melt ka MA A i l) (fun l => melt kb MB B l j) (melt (common ka kb) MC C i j)) /\
    (forall p, ~ inview (common ka kb) C p -> MC' p = MC p).
Proof.
  intros usez garbage ka kb MA A MB B MC C alpha beta CA CB CC KK R1 R2 Hm Hk Hn.
  assert (HC : mdim C = m_rn A * m_cn B) by (unfold mdim; congruence).
  assert (DIR : forall vk, exists MC', gemm_wrapper vk (isTransposed A) (isTransposed B) (m_rn A) (m_cn B) (m_cn A) alpha MA (m_at A) MB (m_at B) beta MC (m_at C) = Ok MC' /\
    (forall i j, i < m_rn C -> j < m_cn C ->
       melt vk MC' C i j = lin alpha beta (m_cn A) (fun l => melt vk MA A i l) (fun l => melt vk MB B l j) (melt vk MC C i j)) /\
    (forall p, ~ inview vk C p -> MC' p = MC p)).
  { intros vk. destruct (wrapper_ok vk A B alpha beta MA (m_at A) MB (m_at B) MC (m_at C) CA CB KK Hm Hk Hn) as [M [E [V F]]]. exists M. split; [exact E|]. split.
    - intros i j Hi Hj. unfold mat_elt at 1 4. rewrite (col_addr C i j CC), <- R1. rewrite (V i j) by congruence. unfold lin. do 2 f_equal. apply zsum_ext. intros l Hl. unfold mat_elt, maddr. now rewrite !Nat.add_assoc.
    - intros p N. apply F. intros q Hq P. apply N. destruct (contig_stretch C (m_at C + q) (or_introl CC) ltac:(lia)) as [r [c [Hr [Hc Ea]]]]. exists r, c. rewrite Ea. auto. }
  assert (OUT := fun p N => outside C p (or_introl CC) N).
  destruct ka, kb; cbn [GvModel.gemm_impl product_kind].
  - apply DIR.
  - unfold gemm_emulator. cbn [GvModel.emu_tasks].
    destruct (ab_ok Re Cx MA A MB B C 0 0 0 alpha beta garbage MC CA CB KK Hm Hk Hn HC) as [d1 [E1 V1]]. rewrite E1. cbn [obind].
    destruct (tocopy_ok Re Cx MA A MB B C (task_c 0) d1 MC eq_refl) as [M1 [E2 [V2 F2]]]. rewrite E2. cbn [obind]. cbn [Cpart GvModel.task_c] in V2, F2.
    destruct (ab_ok Re Cx MA A MB B C 0 1 1 alpha beta d1 M1 CA CB KK Hm Hk Hn HC) as [d3 [E3 V3]]. rewrite E3. cbn [obind].
    destruct (tocopy_ok Re Cx MA A MB B C (task_c 1) d3 M1 eq_refl) as [M2 [E4 [V4 F4]]]. rewrite E4. cbn [obind snd]. cbn [Cpart GvModel.task_c] in V4, F4.
    exists M2. split; [reflexivity|]. split.
    + apply (parts_ok Re Cx MA A MB B MC C M2 alpha beta CC R1 R2); intros i j Hi Hj; rewrite prod_RC; cbn [fst snd]; assert (Hq : i + j * m_rn A < mdim C) by (rewrite HC; nia).
      * rewrite F4 by (intros; lia). rewrite V2 by exact Hq. now apply V1.
      * rewrite V4 by exact Hq. rewrite V3 by assumption. do 2 f_equal. apply F2. intros; lia.
    + intros p N. rewrite F4 by (intros q Hq; apply (OUT p N); lia). apply F2. intros q Hq. apply (OUT p N); lia.
  - unfold gemm_emulator. cbn [GvModel.emu_tasks].
    destruct (ab_ok Cx Re MA A MB B C 0 0 0 alpha beta garbage MC CA CB KK Hm Hk Hn HC) as [d1 [E1 V1]]. rewrite E1. cbn [obind].
    destruct (tocopy_ok Cx Re MA A MB B C (task_c 0) d1 MC eq_refl) as [M1 [E2 [V2 F2]]]. rewrite E2. cbn [obind]. cbn [Cpart GvModel.task_c] in V2, F2.
    destruct (ab_ok Cx Re MA A MB B C 1 0 1 alpha beta d1 M1 CA CB KK Hm Hk Hn HC) as [d3 [E3 V3]]. rewrite E3. cbn [obind].
    destruct (tocopy_ok Cx Re MA A MB B C (task_c 1) d3 M1 eq_refl) as [M2 [E4 [V4 F4]]]. rewrite E4. cbn [obind snd]. cbn [Cpart GvModel.task_c] in V4, F4.
    exists M2. split; [reflexivity|]. split.
    + apply (parts_ok Cx Re MA A MB B MC C M2 alpha beta CC R1 R2); intros i j Hi Hj; rewrite prod_CR; cbn [fst snd]; assert (Hq : i + j * m_rn A < mdim C) by (rewrite HC; nia).
      * rewrite F4 by (intros; lia). rewrite V2 by exact Hq. now apply V1.
      * rewrite V4 by exact Hq. rewrite V3 by assumption. do 2 f_equal. apply F2. intros; lia.
    + intros p N. rewrite F4 by (intros q Hq; apply (OUT p N); lia). apply F2. intros q Hq. apply (OUT p N); lia.
  - destruct usez; [apply DIR|]. unfold gemm_emulator. cbn [GvModel.emu_tasks].
    destruct (ab_ok Cx Cx MA A MB B C 0 0 0 alpha beta garbage MC CA CB KK Hm Hk Hn HC) as [d1 [E1 V1]]. rewrite E1. cbn [obind].
    destruct (a_ok Cx Cx MA A MB B C 1 1 0 (topp alpha) d1 MC CA CB KK Hm Hk Hn HC) as [d2 [E1' V1']]. rewrite E1'. cbn [obind].
    destruct (tocopy_ok Cx Cx MA A MB B C (task_c 0) d2 MC eq_refl) as [M1 [E2 [V2 F2]]]. rewrite E2. cbn [obind]. cbn [Cpart GvModel.task_c] in V2, F2.
    destruct (ab_ok Cx Cx MA A MB B C 1 0 1 alpha beta d2 M1 CA CB KK Hm Hk Hn HC) as [d3 [E3 V3]]. rewrite E3. cbn [obind].
    destruct (a_ok Cx Cx MA A MB B C 0 1 1 alpha d3 M1 CA CB KK Hm Hk Hn HC) as [d4 [E3' V3']]. rewrite E3'. cbn [obind].
    destruct (tocopy_ok Cx Cx MA A MB B C (task_c 1) d4 M1 eq_refl) as [M2 [E4 [V4 F4]]]. rewrite E4. cbn [obind snd]. cbn [Cpart GvModel.task_c] in V4, F4.
    exists M2. split; [reflexivity|]. split.
    + apply (parts_ok Cx Cx MA A MB B MC C M2 alpha beta CC R1 R2); intros i j Hi Hj; rewrite prod_CC; cbn [fst snd]; assert (Hq : i + j * m_rn A < mdim C) by (rewrite HC; nia).
      * rewrite F4 by (intros; lia). rewrite V2 by exact Hq. rewrite V1' by assumption. rewrite V1 by assumption. ring.
      * rewrite V4 by exact Hq. rewrite V3' by assumption. rewrite V3 by assumption. rewrite (F2 (2 * m_at C + 1 + 2 * (i + j * m_rn A))) by (intros; lia). ring.
    + intros p N. rewrite F4 by (intros q Hq; apply (OUT p N); lia). apply F2. intros q Hq. apply (OUT p N); lia.
Qed.

(* ---- transposed views ---- *)
Lemma tr_contig : forall v, contiguous v -> contiguous (transpose v).
Proof. intros v [[A B]|[A B]]; [right|left]; split; assumption. Qed.
Lemma tr_col : forall v, isTransposed v = true -> column_major (transpose v).
Proof. intros v H. apply trans_b in H. destruct H as [A B]. split; assumption. Qed.
Lemma tr_addr : forall v i j, maddr (transpose v) i j = maddr v j i.
Proof. intros v i j. unfold maddr. cbn [m_at m_rs m_cs transpose]. lia. Qed.
Lemma tr_elt : forall k (m : mem T) v i j, melt k m (transpose v) i j = melt k m v j i.
Proof. intros. unfold mat_elt. now rewrite tr_addr. Qed.
Lemma tr_in : forall k v p, inview k (transpose v) p -> inview k v p.
Proof. intros k v p [r [c [Hr [Hc P]]]]. cbn [m_rn m_cn transpose] in *. rewrite tr_addr in P. exists c, r. auto. Qed.
Lemma common_comm : forall ka kb, common ka kb = common kb ka.
Proof. now intros [|] [|]. Qed.
Notation gemm := (gemm t0 t1 tadd tmul tsub topp tzero).
Lemma gemm_ok : forall dbg usez garbage ka kb MA A MB B MC C alpha beta, contiguous A -> contiguous B -> contiguous C ->
  m_cn A = m_rn B -> m_rn A = m_rn C -> m_cn B = m_cn C -> 1 <= m_rn A -> 1 <= m_cn A -> 1 <= m_cn B ->
  exists MC', gemm dbg usez garbage ka kb MA A MB B MC C alpha beta = Ok MC' /\
    (forall i j, i < m_rn C -> j < m_cn C ->
       melt (common ka kb) MC' C i j = lin alpha beta (m_cn A) (fun l => melt ka MA A i l) (fun l => melt kb MB B l j) (melt (common ka kb) MC C i j)) /\
    (forall p, ~ inview (common ka kb) C p -> MC' p = MC p).
Proof.
  intros dbg usez garbage ka kb MA A MB B MC C alpha beta CA CB CC KK R1 R2 Hm Hk Hn. unfold GvModel.gemm.
  rewrite (proj2 (contig_b A) CA), (proj2 (contig_b B) CB), (proj2 (contig_b C) CC). rewrite KK, R1, R2, !Nat.eqb_refl. cbn [andb negb orb]. rewrite !andb_false_r.
  destruct (isTransposed C) eqn:TC.
  - destruct (impl_ok usez garbage kb ka MB (transpose B) MA (transpose A) MC (transpose C) alpha beta (tr_contig B CB) (tr_contig A CA) (tr_col C TC)) as [M [E [V F]]]; cbn [m_cn m_rn transpose]; try lia.
    exists M. split; [exact E|]. rewrite (common_comm ka kb). split.
    + intros i j Hi Hj. specialize (V j i Hj Hi). rewrite !tr_elt in V. rewrite V. unfold lin. do 2 f_equal. cbn [m_cn transpose]. rewrite <- KK. apply zsum_ext. intros l Hl. rewrite !tr_elt. apply zmul_comm.
    + intros p N. apply F. intros Q. apply N. now apply tr_in.
  - rewrite <- KK. apply impl_ok; try assumption. now apply contig_not_trans.
Qed.

(* ---- gemv ---- *)
Notation call_gemv := (call_gemv t0 tadd tmul tsub tzero).
Notation velt := (vec_elt t0).
Lemma gemv_ok : forall dbg k MM M X x Y y alpha beta fromleft, contiguous M -> 1 <= m_rn M -> 1 <= m_cn M -> 1 <= w_s x -> 1 <= w_s y ->
  exists Y', call_gemv dbg k MM M X x Y y alpha beta fromleft = Ok Y' /\
    (forall i, i < (if fromleft then m_cn M else m_rn M) ->
       rd k Y' (w_at y + i * w_s y) =
       lin alpha beta (if fromleft then m_rn M else m_cn M) (fun l => if fromleft then melt k MM M l i else melt k MM M i l) (fun l => velt k X x l) (rd k Y (w_at y + i * w_s y))) /\
    (forall p, (forall i, i < (if fromleft then m_cn M else m_rn M) -> ~ place k (w_at y + i * w_s y) p) -> Y' p = Y p).
Proof.
  intros dbg k MM M X x Y y alpha beta fl CM Hr Hc Sx Sy. unfold GvModel.call_gemv. rewrite (proj2 (contig_b M) CM). cbn [negb]. rewrite andb_false_r. cbv zeta.
  unfold gemv_wrapper, blas_gemv.
  set (m := if isTransposed M then m_cn M else m_rn M). set (n := if isTransposed M then m_rn M else m_cn M). set (tr := if isTransposed M then negb fl else fl).
  assert (Hm : 1 <= m) by (unfold m; destruct (isTransposed M); lia). assert (Hn : 1 <= n) by (unfold n; destruct (isTransposed M); lia).
  replace (m <? max 1 m) with false by (symmetry; apply Nat.ltb_ge; lia).
  replace (w_s x =? 0) with false by (symmetry; apply Nat.eqb_neq; lia). replace (w_s y =? 0) with false by (symmetry; apply Nat.eqb_neq; lia).
  replace (m =? 0) with false by (symmetry; apply Nat.eqb_neq; lia). replace (n =? 0) with false by (symmetry; apply Nat.eqb_neq; lia). cbn [orb].
  assert (Ly : (if tr then n else m) = if fl then m_cn M else m_rn M) by (unfold tr, n, m; destruct (isTransposed M), fl; reflexivity).
  assert (Lx : (if tr then m else n) = if fl then m_rn M else m_cn M) by (unfold tr, n, m; destruct (isTransposed M), fl; reflexivity).
  rewrite Ly, Lx. set (ly := if fl then m_cn M else m_rn M). set (lx := if fl then m_rn M else m_cn M).
  set (g := fun i old => lin alpha beta lx (fun l => if fl then melt k MM M l i else melt k MM M i l) (fun l => velt k X x l) old).
  eexists. split; [reflexivity|].
  erewrite each_ext.
  2:{ intros i s Hi. instantiate (1 := fun i s => wr k s (w_at y + i * w_s y) (g i (rd k s (w_at y + i * w_s y)))). cbv beta. rewrite bz_eq. unfold g, lin. do 3 f_equal.
      apply zsum_ext. intros l Hl. apply f_equal2; [|reflexivity]. unfold tr, m. destruct (isTransposed M) eqn:E, fl; cbn [negb]; unfold mat_elt, maddr; apply f_equal; rewrite <- !Nat.add_assoc; apply f_equal.
      - rewrite off_T by exact E. reflexivity.
      - rewrite off_T by exact E. reflexivity.
      - rewrite off_N by assumption. reflexivity.
      - rewrite off_N by assumption. reflexivity. }
  destruct (each_wr k ly (fun i => w_at y + i * w_s y) g Y ltac:(cbv beta; intros; nia)) as [V F]. cbn zeta in *. split.
  - intros i Hi. rewrite (V i Hi). rewrite proj_val; [reflexivity|]. unfold g.
    destruct fl; [apply (lin_val k alpha beta lx MM X Y (fun l => maddr M l i) (fun l => vaddr x l))|apply (lin_val k alpha beta lx MM X Y (fun l => maddr M i l) (fun l => vaddr x l))].
  - exact F.
Qed.

(* ---- iteration ---- *)
Lemma it_ok : forall v t, 1 <= m_rn v -> Nat.iter t (it_next v) it_begin = (t, t mod m_rn v * m_rs v + t / m_rn v * m_cs v).
Proof.
  intros v t Hr. induction t as [|t IH].
  - cbn [Nat.iter nat_rect]. rewrite Nat.mod_0_l, Nat.div_0_l by lia. reflexivity.
  - cbn [Nat.iter nat_rect]. fold (Nat.iter t (it_next v) it_begin). rewrite IH. unfold it_next. cbn [fst snd].
    pose proof (Nat.div_mod t (m_rn v) ltac:(lia)) as D. pose proof (Nat.mod_upper_bound t (m_rn v) ltac:(lia)) as B.
    set (q := t / m_rn v) in *. set (r := t mod m_rn v) in *.
    destruct (Nat.eq_dec (S r) (m_rn v)) as [W|W].
    + assert (E : S t = 0 + S q * m_rn v) by nia.
      assert (E1 : S t mod m_rn v = 0) by (rewrite E, Nat.mod_add, Nat.mod_0_l by lia; reflexivity).
      assert (E2 : S t / m_rn v = S q) by (rewrite E, Nat.div_add, Nat.div_0_l by lia; reflexivity).
      rewrite E1, E2. cbn [Nat.eqb]. f_equal. assert (m_rs v * m_rn v = r * m_rs v + m_rs v) by (rewrite <- W; lia). lia.
    + assert (E : S t = S r + q * m_rn v) by nia.
      assert (E1 : S t mod m_rn v = S r) by (rewrite E, Nat.mod_add by lia; apply Nat.mod_small; lia).
      assert (E2 : S t / m_rn v = q) by (rewrite E, Nat.div_add by lia; rewrite Nat.div_small by lia; reflexivity).
      rewrite E1, E2. cbn [Nat.eqb]. f_equal. lia.
Qed.
Notation apply_view := (apply_view t0).
Lemma iter_S_out : forall A n (f : A -> A) x, Nat.iter (S n) f x = Nat.iter n f (f x).
Proof. induction n as [|n IH]; intros f x; [reflexivity|]. change (f (Nat.iter (S n) f x) = f (Nat.iter n f (f x))). now rewrite IH. Qed.
(** The iterator loop as a counting loop. *)
Lemma apply_each : forall n ka kb a b f MB MA ia ib, apply_view n ka kb a b ia ib f MB MA =
  each n (fun t MA => wr ka MA (m_at a + snd (Nat.iter t (it_next a) ia)) (f (rd ka MA (m_at a + snd (Nat.iter t (it_next a) ia))) (rd kb MB (m_at b + snd (Nat.iter t (it_next b) ib))))) MA.
Proof.
  assert (SH : forall S n (h : nat -> S -> S) s, each (Datatypes.S n) h s = each n (fun i => h (Datatypes.S i)) (h 0 s)).
  { induction n as [|n IH]; intros h s; [reflexivity|]. change (each (Datatypes.S (Datatypes.S n)) h s) with (h (Datatypes.S n) (each (Datatypes.S n) h s)). rewrite IH. reflexivity. }
  induction n as [|n IH]; intros ka kb a b f MB MA ia ib; [reflexivity|].
  rewrite SH. cbn [GvModel.apply_view]. rewrite IH. apply each_ext. intros i s Hi. now rewrite !iter_S_out.
Qed.
Lemma view_ok : forall ka kb a b f MB MA, distinct a -> m_rn b = m_rn a -> m_cn b = m_cn a ->
  let MA' := apply_view (mdim a) ka kb a b it_begin it_begin f MB MA in
  (forall r c, r < m_rn a -> c < m_cn a -> melt ka MA' a r c = proj ka (f (melt ka MA a r c) (melt kb MB b r c))) /\
  (forall p, ~ inview ka a p -> MA' p = MA p).
Proof.
  intros ka kb a b f MB MA Di R C. cbn zeta. rewrite apply_each. unfold mdim.
  destruct (Nat.eq_dec (m_rn a) 0) as [Z|Z]. { rewrite Z. cbn [Nat.mul each]. split; [intros; lia|reflexivity]. }
  set (n := m_rn a) in *.
  assert (AD : forall t, m_at a + snd (Nat.iter t (it_next a) it_begin) = maddr a (t mod n) (t / n)). { intros t. rewrite it_ok by lia. cbn [snd]. unfold maddr. fold n. lia. }
  assert (BD : forall t, m_at b + snd (Nat.iter t (it_next b) it_begin) = maddr b (t mod n) (t / n)). { intros t. rewrite it_ok by lia. cbn [snd]. unfold maddr. rewrite R. lia. }
  erewrite each_ext.
  2:{ intros t s Ht. rewrite AD, BD. instantiate (1 := fun t s => wr ka s (maddr a (t mod n) (t / n)) ((fun t old => f old (rd kb MB (maddr b (t mod n) (t / n)))) t (rd ka s (maddr a (t mod n) (t / n))))). reflexivity. }
  assert (DV : forall t, t < n * m_cn a -> t mod n < n /\ t / n < m_cn a /\ t = t mod n + t / n * n).
  { intros t Ht. pose proof (Nat.div_mod t n ltac:(lia)). pose proof (Nat.mod_upper_bound t n ltac:(lia)). split; [lia|]. split; [apply Nat.div_lt_upper_bound; lia|lia]. }
  destruct (each_wr ka (n * m_cn a) (fun t => maddr a (t mod n) (t / n)) (fun t old => f old (rd kb MB (maddr b (t mod n) (t / n)))) MA) as [V F].
  { cbv beta. intros s t Hs Ht E. destruct (DV s Hs) as [A1 [A2 A3]]. destruct (DV t Ht) as [B1 [B2 B3]]. destruct (Di _ _ _ _ A1 A2 B1 B2 E) as [E1 E2]. rewrite A3, B3, E1, E2. reflexivity. }
  cbn zeta in *. split.
  - intros r c Hr Hc. assert (Ht : r + c * n < n * m_cn a) by nia. specialize (V _ Ht).
    assert (Ei : (r + c * n) mod n = r) by (rewrite Nat.mod_add by lia; now apply Nat.mod_small).
    assert (Ej : (r + c * n) / n = c) by (rewrite Nat.div_add by lia; rewrite Nat.div_small by lia; reflexivity).
    rewrite Ei, Ej in V. exact V.
  - intros p N. apply F. intros t Ht P. apply N. destruct (DV t Ht) as [A1 [A2 A3]]. exists (t mod n), (t / n). auto.
Qed.
(** The loop over a contiguous stretch. *)
Lemma ptr_ok : forall ka kb a b f MB MA, contiguous a -> m_rn b = m_rn a -> m_cn b = m_cn a -> m_rs b = m_rs a -> m_cs b = m_cs a ->
  let MA' := apply_ptr t0 (mdim a) ka kb (m_at a) (m_at b) f MB MA in
  (forall r c, r < m_rn a -> c < m_cn a -> melt ka MA' a r c = proj ka (f (melt ka MA a r c) (melt kb MB b r c))) /\
  (forall p, ~ inview ka a p -> MA' p = MA p).
Proof.
  intros ka kb a b f MB MA Ca R1 R2 R3 R4. cbn zeta. unfold apply_ptr.
  destruct (each_wr ka (mdim a) (fun t => m_at a + t) (fun t old => f old (rd kb MB (m_at b + t))) MA ltac:(cbv beta; intros; lia)) as [V F]. cbn zeta in *. split.
  - intros r c Hr Hc. assert (O := off_lt a r c Ca Hr Hc). specialize (V _ O). unfold mat_elt, maddr. rewrite R3, R4, <- !Nat.add_assoc. exact V.
  - intros p N. apply F. intros t Ht P. apply N. destruct (contig_stretch a (m_at a + t) Ca ltac:(lia)) as [r [c [Hr [Hc Ea]]]]. exists r, c. rewrite Ea. auto.
Qed.
(** A loop over the places of a contiguous stretch. *)
Lemma places_ok : forall k a (h : nat -> T -> T) MA, contiguous a ->
  let MA' := each (rsize k (mdim a)) (fun i M => put M (rptr k (m_at a) + i) (h i (M (rptr k (m_at a) + i)))) MA in
  (forall r c, r < m_rn a -> c < m_cn a -> let q := r * m_rs a + c * m_cs a in
     melt k MA' a r c = match k with Re => (h q (MA (maddr a r c)), t0) | Cx => (h (2 * q) (MA (2 * maddr a r c)), h (S (2 * q)) (MA (S (2 * maddr a r c)))) end) /\
  (forall p, ~ inview k a p -> MA' p = MA p).
Proof.
  intros k a h MA Ca. cbn zeta.
  destruct (each_put (rsize k (mdim a)) (fun i => rptr k (m_at a) + i) h MA ltac:(cbv beta; intros; lia)) as [V F]. split.
  - intros r c Hr Hc. assert (O := off_lt a r c Ca Hr Hc). unfold mat_elt, maddr. rewrite <- !Nat.add_assoc. set (q := r * m_rs a + c * m_cs a) in *. destruct k; cbn [elt rptr rsize] in *.
    + now rewrite V by lia.
    + replace (2 * (m_at a + q)) with (2 * m_at a + 2 * q) by lia. replace (S (2 * m_at a + 2 * q)) with (2 * m_at a + S (2 * q)) by lia. now rewrite !V by lia.
  - intros p N. apply F. intros i Hi E. apply N. destruct k; cbn [rptr rsize] in *.
    + destruct (contig_stretch a p Ca ltac:(lia)) as [r [c [Hr [Hc Ea]]]]. exists r, c. cbn [place]. auto.
    + pose proof (Nat.div_mod i 2 ltac:(lia)) as Dv. pose proof (Nat.mod_upper_bound i 2 ltac:(lia)) as Bv.
      destruct (contig_stretch a (m_at a + i / 2) Ca ltac:(lia)) as [r [c [Hr [Hc Ea]]]]. exists r, c. rewrite Ea. cbn [place]. split; [exact Hr|]. split; [exact Hc|]. lia.
Qed.
End Proofs.
