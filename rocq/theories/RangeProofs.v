(** Lemmas about ranges, counters and permutations. *)
From Coq Require Import List ZArith Lia Bool Arith Permutation.
From Verif Require Import Util RangeModel RangeSpec.
Import ListNotations.

Local Arguments Nat.sub : simpl never.

(** ** column-major numbering *)
Fixpoint enc (e t : list nat) : nat :=
  match e, t with d :: e', i :: t' => i + d * enc e' t' | _, _ => 0 end.
Fixpoint decode (e : list nat) (k : nat) : list nat :=
  match e with [] => [] | d :: e' => k mod d :: decode e' (k / d) end.
(** sum of stride * value *)
Fixpoint dot (r : range) (t : list nat) : nat :=
  match r, t with x :: r', i :: t' => str x * i + dot r' t' | _, _ => 0 end.

Definition shift (start : nat) (t : list nat) : list nat := map (fun i => i + start) t.

Lemma valid_length e t : valid e t -> length t = length e.
Proof. intros H; induction H; simpl; auto. Qed.

Lemma offset_dot start : forall r t, length t <= length r -> offset start r (shift start t) = Ok (dot r t).
Proof.
  induction r as [|x r IH]; intros [|i t] H; cbn [length] in H; try lia; auto.
  cbn [shift map offset dot]. change (map (fun i => i + start) t) with (shift start t).
  rewrite IH by lia. cbn [obind]. rewrite Nat.add_sub. reflexivity.
Qed.

Lemma dot_with_strides : forall e s t, length t = length e -> dot (with_strides s e) t = s * enc e t.
Proof.
  induction e as [|d e IH]; intros s [|i t] H; simpl in *; try lia. rewrite IH by lia. nia.
Qed.

Lemma enc_lt e t : valid e t -> enc e t < size e.
Proof. intros H; induction H as [|d i e t Hd HF IH]; simpl; auto. nia. Qed.

Lemma size_pos_inv d e : 0 < size (d :: e) -> 0 < d /\ 0 < size e.
Proof. simpl. intros; split; nia. Qed.

Lemma decode_valid : forall e k, k < size e -> valid e (decode e k).
Proof.
  induction e as [|d e IH]; intros k H; simpl in *; constructor.
  - apply Nat.mod_upper_bound. nia.
  - apply IH. apply Nat.div_lt_upper_bound; nia.
Qed.

Lemma enc_decode : forall e k, k < size e -> enc e (decode e k) = k.
Proof.
  induction e as [|d e IH]; intros k H; simpl in *; [lia|].
  assert (d <> 0) by nia. rewrite IH by (apply Nat.div_lt_upper_bound; nia).
  pose proof (Nat.div_mod k d H0). lia.
Qed.

Lemma decode_enc e t : valid e t -> decode e (enc e t) = t.
Proof.
  intros H; induction H as [|d i e t Hd HF IH]; simpl; auto.
  rewrite (Nat.mul_comm d). rewrite Nat.mod_add by lia. rewrite Nat.div_add by lia.
  rewrite Nat.mod_small, Nat.div_small by lia. simpl. now rewrite IH.
Qed.

Lemma enc_inj e t t' : valid e t -> valid e t' -> enc e t = enc e t' -> t = t'.
Proof. intros H H' E. rewrite <- (decode_enc e t), <- (decode_enc e t') by auto. now rewrite E. Qed.

Lemma decode_length e k : length (decode e k) = length e.
Proof. revert k; induction e; intros; simpl; auto. Qed.

Lemma map_ext_range_init : forall e s, map ext (with_strides s e) = e.
Proof. induction e; intros; simpl; auto. now rewrite IHe. Qed.

Lemma with_strides_length : forall e s, length (with_strides s e) = length e.
Proof. induction e; intros; simpl; auto. Qed.

Lemma dim_size r : dim r = size (map ext r).
Proof. induction r; simpl; auto. Qed.

(** ** contiguity *)
Lemma dot_le_max r t : valid (map ext r) t -> dot r t <= max_offset r.
Proof.
  revert t; induction r as [|x r IH]; intros t H; inversion H; subst; simpl; [lia|].
  specialize (IH _ H4). nia.
Qed.

Lemma valid_max r : (forall x, In x r -> 1 <= ext x) ->
  valid (map ext r) (map (fun x => ext x - 1) r) /\ dot r (map (fun x => ext x - 1) r) = max_offset r.
Proof.
  induction r as [|x r IH]; intros H; simpl; [split; auto; constructor|].
  destruct IH as [A B]; [intros; apply H; right; auto|].
  split; [constructor; auto; specialize (H x (or_introl eq_refl)); lia|lia].
Qed.

Definition all_tuples (e : list nat) : list (list nat) := map (decode e) (seq 0 (size e)).

Lemma in_all_tuples e t : In t (all_tuples e) <-> valid e t.
Proof.
  unfold all_tuples. rewrite in_map_iff. split.
  - intros (k & <- & Hk). apply in_seq in Hk. apply decode_valid; lia.
  - intros H. exists (enc e t). split; [now apply decode_enc|]. apply in_seq. pose proof (enc_lt e t H). lia.
Qed.

Lemma all_tuples_nodup e : NoDup (all_tuples e).
Proof.
  unfold all_tuples. rewrite (map_ext_in _ (fun k => decode e k)) by auto.
  assert (H : forall l, (forall k, In k l -> k < size e) -> NoDup l -> NoDup (map (decode e) l)).
  { induction l as [|k l IH]; intros HL HN; simpl; constructor; inversion HN; subst.
    - intros K. apply in_map_iff in K as (j & E & Hj).
      assert (j = k); [|subst; auto].
      rewrite <- (enc_decode e j), <- (enc_decode e k); [now rewrite E| |]; apply HL; simpl; auto.
    - apply IH; auto. intros; apply HL; simpl; auto. }
  apply H; [|apply seq_NoDup]. intros k Hk. apply in_seq in Hk. lia.
Qed.

(** ** reordering the indices of a range *)
Lemma perm_tuples : forall r r', Permutation r r' ->
  exists f g, (forall t, valid (map ext r) t -> valid (map ext r') (f t) /\ dot r' (f t) = dot r t /\ g (f t) = t) /\
              (forall t, valid (map ext r') t -> valid (map ext r) (g t) /\ dot r (g t) = dot r' t /\ f (g t) = t).
Proof.
  intros r r' HP; induction HP as [|x r r' HP IH|x y r|r1 r2 r3 H1 IH1 H2 IH2].
  - exists (fun t => t), (fun t => t). split; auto.
  - destruct IH as (f & g & A & B).
    exists (fun t => match t with i :: t' => i :: f t' | [] => [] end),
           (fun t => match t with i :: t' => i :: g t' | [] => [] end).
    split; intros t H; inversion H as [|d i e' t' HH HT]; subst; simpl.
    + destruct (A t' HT) as (A1 & A2 & A3). repeat split; [constructor; auto|lia|congruence].
    + destruct (B t' HT) as (B1 & B2 & B3). repeat split; [constructor; auto|lia|congruence].
  - exists (fun t => match t with i :: j :: t' => j :: i :: t' | _ => t end),
           (fun t => match t with i :: j :: t' => j :: i :: t' | _ => t end).
    split; intros t H; inversion H as [|d i e' t' HH HT]; subst; inversion HT as [|d' j e'' t'' HH' HT']; subst; simpl;
      (repeat split; [constructor; auto; constructor; auto|lia]).
  - destruct IH1 as (f1 & g1 & A1 & B1), IH2 as (f2 & g2 & A2 & B2).
    exists (fun t => f2 (f1 t)), (fun t => g1 (g2 t)). split; intros t H.
    + destruct (A1 t H) as (X1 & X2 & X3). destruct (A2 _ X1) as (Y1 & Y2 & Y3).
      repeat split; auto; congruence.
    + destruct (B2 t H) as (X1 & X2 & X3). destruct (B1 _ X1) as (Y1 & Y2 & Y3).
      repeat split; auto; congruence.
Qed.

(** ** the odometer *)
Lemma mod_step d k : 0 < d -> k mod d + 1 < d -> (k + 1) mod d = k mod d + 1 /\ (k + 1) / d = k / d.
Proof.
  intros Hd H. pose proof (Nat.div_mod k d ltac:(lia)) as E.
  assert (X : k + 1 = (k mod d + 1) + (k / d) * d) by lia.
  rewrite X at 1 2. rewrite Nat.mod_add, Nat.div_add by lia.
  rewrite Nat.mod_small, Nat.div_small by lia. split; lia.
Qed.

Lemma mod_carry d k : 0 < d -> k mod d + 1 = d -> (k + 1) mod d = 0 /\ (k + 1) / d = k / d + 1.
Proof.
  intros Hd H. pose proof (Nat.div_mod k d ltac:(lia)) as E.
  assert (X : k + 1 = 0 + (k / d + 1) * d) by lia.
  rewrite X at 1 2. rewrite Nat.mod_add, Nat.div_add by lia.
  rewrite Nat.mod_small, Nat.div_small by lia. split; lia.
Qed.

Lemma carry_spec start : forall r k prev A,
  let e := map ext r in
  k < size e ->
  let '(l, o) := carry start prev (ext prev + start) r (shift start (decode e k)) (A + ext prev * str prev + dot r (decode e k)) in
  if k + 1 <? size e
  then l = start :: shift start (decode e (k + 1)) /\ o = Some (A + dot r (decode e (k + 1)))
  else o = None.
Proof.
  induction r as [|x r IH]; intros k prev A e Hk.
  - simpl in *. destruct (Nat.ltb_spec (k + 1) 1); [lia|]. reflexivity.
  - unfold e in *. cbn [map size decode shift carry dot] in *. fold (shift start).
    assert (Hd : 0 < ext x) by nia. pose proof (Nat.mod_upper_bound k (ext x) ltac:(lia)) as Hm.
    replace (k mod ext x + start + 1 - start) with (k mod ext x + 1) by lia.
    set (E := size (map ext r)) in *.
    assert (Hq : k / ext x < E) by (apply Nat.div_lt_upper_bound; nia).
    pose proof (Nat.div_mod k (ext x) ltac:(lia)) as EQ.
    destruct (Nat.ltb_spec (k mod ext x + 1) (ext x)) as [L|L].
    + destruct (mod_step (ext x) k Hd L) as [M1 M2].
      destruct (Nat.ltb_spec (k + 1) (ext x * E)); [|nia].
      rewrite M1, M2. split; [f_equal; f_equal; lia|]. f_equal. nia.
    + destruct (mod_carry (ext x) k Hd ltac:(lia)) as [M1 M2].
      specialize (IH (k / ext x) x A Hq). cbv zeta in IH.
      replace (k mod ext x + start + 1) with (ext x + start) by lia.
      replace (A + ext prev * str prev + (str x * (k mod ext x) + dot r (decode (map ext r) (k / ext x))) - ext prev * str prev + str x)
        with (A + ext x * str x + dot r (decode (map ext r) (k / ext x))) by nia.
      destruct (carry start x (ext x + start) r _ _) as [l o].
      fold E in IH.
      destruct (Nat.ltb_spec (k / ext x + 1) E) as [L'|L'], (Nat.ltb_spec (k + 1) (ext x * E)) as [L''|L'']; try nia.
      * destruct IH as [-> ->]. rewrite M1, M2. split; [f_equal; f_equal; lia|]. f_equal. nia.
      * auto.
Qed.

Lemma riter_next_spec start r k : r <> [] -> 
  let e := map ext r in
  k < size e ->
  exists it', riter_next start r (RI (Some (dot r (decode e k))) (shift start (decode e k))) = Ok it' /\
   if k + 1 <? size e
   then it' = RI (Some (dot r (decode e (k + 1)))) (shift start (decode e (k + 1)))
   else it_off it' = None.
Proof.
  intros Hr e Hk. unfold e in *. destruct r as [|x r]; [congruence|].
  cbn [map size decode shift riter_next dot it_ind it_off] in *. fold (shift start).
  assert (Hd : 0 < ext x) by nia. pose proof (Nat.mod_upper_bound k (ext x) ltac:(lia)) as Hm.
  replace (k mod ext x + start + 1 - start) with (k mod ext x + 1) by lia.
  set (E := size (map ext r)) in *.
  assert (Hq : k / ext x < E) by (apply Nat.div_lt_upper_bound; nia).
  pose proof (Nat.div_mod k (ext x) ltac:(lia)) as EQ.
  destruct (Nat.eqb_spec (k mod ext x + 1) (ext x)) as [L|L].
  - destruct (mod_carry (ext x) k Hd L) as [M1 M2].
    pose proof (carry_spec start r (k / ext x) x 0 Hq) as C. cbv zeta in C. fold E in C.
    replace (k mod ext x + start + 1) with (ext x + start) by lia.
    replace (str x * (k mod ext x) + dot r (decode (map ext r) (k / ext x)) + str x)
      with (0 + ext x * str x + dot r (decode (map ext r) (k / ext x))) by nia.
    destruct (carry start x (ext x + start) r _ _) as [l o].
    eexists; split; [reflexivity|].
    destruct (Nat.ltb_spec (k / ext x + 1) E) as [L'|L'], (Nat.ltb_spec (k + 1) (ext x * E)) as [L''|L'']; try nia.
    + destruct C as [-> ->]. rewrite M1, M2. simpl. repeat f_equal; lia.
    + rewrite C. reflexivity.
  - destruct (mod_step (ext x) k Hd ltac:(lia)) as [M1 M2].
    eexists; split; [reflexivity|].
    destruct (Nat.ltb_spec (k + 1) (ext x * E)); [|nia].
    rewrite M1, M2. f_equal; [f_equal; nia|f_equal; lia].
Qed.

Lemma riter_loop_spec start r : r <> [] -> let e := map ext r in
  forall n k, n + k = size e -> 0 < n ->
  riter_loop (S n) start r (RI (Some (dot r (decode e k))) (shift start (decode e k))) =
    Ok (Some (map (fun j => (shift start (decode e j), dot r (decode e j))) (seq k n))).
Proof.
  intros Hr e. induction n as [|n IH]; intros k Hn Hpos; [lia|].
  destruct (riter_next_spec start r k Hr) as (it' & E & H); [unfold e in *; lia|].
  change (riter_loop (S (S n)) start r ?it) with
    (match it_off it with None => Ok (Some []) | Some off =>
      obind (riter_next start r it) (fun it' => obind (riter_loop (S n) start r it') (fun rest =>
         Ok (option_map (cons (it_ind it, off)) rest))) end).
  cbn [it_off it_ind]. fold e in E, H. rewrite E. cbn [obind].
  destruct (Nat.ltb_spec (k + 1) (size e)) as [L|L].
  - subst it'. rewrite IH by lia. cbn [obind option_map seq map]. now rewrite Nat.add_1_r.
  - assert (n = 0) by lia; subst n. cbn [riter_loop]. rewrite H. reflexivity.
Qed.

Lemma decode_zero e : (forall d, In d e -> 0 < d) -> decode e 0 = repeat 0 (length e).
Proof.
  induction e as [|d e IH]; intros H; simpl; auto.
  rewrite Nat.mod_0_l, Nat.div_0_l by (specialize (H d (or_introl eq_refl)); lia).
  rewrite IH; auto. intros; apply H; simpl; auto.
Qed.

Lemma size_pos e : (forall d, In d e -> 0 < d) -> 0 < size e.
Proof.
  induction e as [|d e IH]; intros H; simpl; [lia|].
  assert (0 < d) by (apply H; simpl; auto). assert (0 < size e) by (apply IH; intros; apply H; simpl; auto). nia.
Qed.

Lemma dot_repeat0 r n : dot r (repeat 0 n) = 0.
Proof. revert n; induction r; intros [|n]; simpl; auto. rewrite IHr. lia. Qed.

Lemma shift_repeat0 start n : shift start (repeat 0 n) = repeat start n.
Proof. unfold shift. induction n; simpl; congruence. Qed.

(** ** GCounter: reduce to the same numbering *)
Definition gext (rs : list (Z * Z)) : list nat := map (fun p => Z.to_nat (snd p - fst p + 1)) rs.
Fixpoint gshift (rs : list (Z * Z)) (t : list nat) : list Z :=
  match rs, t with (f, _) :: rs', i :: t' => (f + Z.of_nat i)%Z :: gshift rs' t' | _, _ => [] end.

Lemma gshift_length rs t : length t = length rs -> length (gshift rs t) = length rs.
Proof. revert t; induction rs as [|[f l] rs IH]; intros [|i t] H; simpl in *; try lia. rewrite IH; lia. Qed.

Lemma gc_carry_spec : forall rs k pf pv,
  k < size (gext rs) ->
  let '(t, b) := gc_carry pf pv rs (gshift rs (decode (gext rs) k)) in
  if k + 1 <? size (gext rs)
  then t = pf :: gshift rs (decode (gext rs) (k + 1)) /\ b = true
  else b = false /\ exists v t', t = v :: t' /\ length t' = length rs.
Proof.
  induction rs as [|[f l] rs IH]; intros k pf pv Hk.
  - simpl in *. destruct (Nat.ltb_spec (k + 1) 1); [lia|]. eauto.
  - cbn [gext map size decode gshift gc_carry fst snd] in *. fold (gext rs) in *.
    set (d := Z.to_nat (l - f + 1)) in *.
    assert (Hd : 0 < d) by nia. pose proof (Nat.mod_upper_bound k d ltac:(lia)) as Hm.
    set (E := size (gext rs)) in *.
    assert (Hq : k / d < E) by (apply Nat.div_lt_upper_bound; nia).
    pose proof (Nat.div_mod k d ltac:(lia)) as EQ.
    destruct (Z.leb_spec (f + Z.of_nat (k mod d) + 1) l) as [L|L].
    + assert (L1 : k mod d + 1 < d) by (unfold d in *; lia).
      destruct (mod_step d k Hd L1) as [M1 M2].
      destruct (Nat.ltb_spec (k + 1) (d * E)); [|nia].
      rewrite M1, M2. split; auto. f_equal; f_equal; lia.
    + assert (L1 : k mod d + 1 = d) by (unfold d in *; lia).
      destruct (mod_carry d k Hd L1) as [M1 M2].
      specialize (IH (k / d) f (f + Z.of_nat (k mod d) + 1)%Z Hq).
      destruct (gc_carry f _ rs _) as [t b]. fold E in IH.
      destruct (Nat.ltb_spec (k / d + 1) E) as [L'|L'], (Nat.ltb_spec (k + 1) (d * E)) as [L''|L'']; try nia.
      * destruct IH as [-> ->]. rewrite M1, M2. split; auto. f_equal; f_equal; lia.
      * destruct IH as (-> & v & t' & -> & HL). split; auto. eexists _, _. split; [reflexivity|]. simpl; lia.
Qed.

Lemma gc_next_spec rs k n : rs <> [] -> k < size (gext rs) ->
  exists g', gc_next (GC rs (gshift rs (decode (gext rs) k)) n) = Ok g' /\
  if k + 1 <? size (gext rs)
  then g' = GC rs (gshift rs (decode (gext rs) (k + 1))) (S n)
  else gc_notDone g' = Ok false.
Proof.
  intros Hr Hk. destruct rs as [|[f l] rs]; [congruence|].
  unfold gc_next. cbn [gc_range gc_i gc_ind].
  cbn [gext map size decode gshift fst snd] in *. fold (gext rs) in *.
  set (d := Z.to_nat (l - f + 1)) in *.
  assert (Hd : 0 < d) by nia. pose proof (Nat.mod_upper_bound k d ltac:(lia)) as Hm.
  set (E := size (gext rs)) in *.
  assert (Hq : k / d < E) by (apply Nat.div_lt_upper_bound; nia).
  pose proof (Nat.div_mod k d ltac:(lia)) as EQ.
  destruct (Z.ltb_spec l (f + Z.of_nat (k mod d) + 1)) as [L|L].
  - assert (L1 : k mod d + 1 = d) by (unfold d in *; lia).
    destruct (mod_carry d k Hd L1) as [M1 M2].
    pose proof (gc_carry_spec rs (k / d) f (f + Z.of_nat (k mod d) + 1)%Z Hq) as C. fold E in C.
    destruct (gc_carry f _ rs _) as [t b].
    destruct (Nat.ltb_spec (k / d + 1) E) as [L'|L'], (Nat.ltb_spec (k + 1) (d * E)) as [L''|L'']; try nia.
    + destruct C as [-> ->]. eexists; split; [reflexivity|]. rewrite M1, M2. simpl. rewrite Z.add_0_r. reflexivity.
    + destruct C as (-> & v & t' & -> & HL). eexists; split; [reflexivity|].
      unfold gc_notDone; cbn [gc_range gc_i]. destruct (Z.leb_spec f (f - 1)); [lia|reflexivity].
  - assert (L1 : k mod d + 1 < d) by (unfold d in *; lia).
    destruct (mod_step d k Hd L1) as [M1 M2]. eexists; split; [reflexivity|].
    destruct (Nat.ltb_spec (k + 1) (d * E)); [|nia].
    rewrite M1, M2. f_equal. f_equal. lia.
Qed.

Lemma gc_notDone_ok rs t n : rs <> [] -> length t = length rs -> gc_notDone (GC rs (gshift rs t) n) = Ok true.
Proof.
  destruct rs as [|[f l] rs], t as [|i t]; simpl; intros; try congruence; try lia.
  unfold gc_notDone; cbn [gc_range gc_i gshift]. destruct (Z.leb_spec f (f + Z.of_nat i)); [reflexivity|lia].
Qed.

Lemma gc_loop_spec rs : rs <> [] -> forall n k, n + k = size (gext rs) -> 0 < n ->
  gc_loop (S n) (GC rs (gshift rs (decode (gext rs) k)) k) =
    Ok (Some (map (fun j => (gshift rs (decode (gext rs) j), j)) (seq k n))).
Proof.
  intros Hr. induction n as [|n IH]; intros k Hn Hpos; [lia|].
  destruct (gc_next_spec rs k k Hr) as (g' & E & H); [lia|].
  change (gc_loop (S (S n)) ?g) with
    (obind (gc_notDone g) (fun nd => if nd then obind (gc_next g) (fun g' => obind (gc_loop (S n) g') (fun rest =>
         Ok (option_map (cons (gc_i g, gc_ind g)) rest))) else Ok (Some []))).
  rewrite gc_notDone_ok; auto.
  2:{ rewrite decode_length. apply map_length. }
  cbn [obind]. rewrite E. cbn [obind gc_i gc_ind].
  destruct (Nat.ltb_spec (k + 1) (size (gext rs))) as [L|L].
  - subst g'. replace (S k) with (k + 1) by lia. rewrite IH by lia. cbn [obind option_map seq map]. now rewrite Nat.add_1_r.
  - assert (n = 0) by lia; subst n. cbn [gc_loop]. rewrite H. reflexivity.
Qed.

Lemma gshift_zero rs : gshift rs (repeat 0 (length rs)) = map fst rs.
Proof. induction rs as [|[f l] rs IH]; simpl; auto. rewrite IH. f_equal. lia. Qed.

Lemma gshift_valid rs t : valid (gext rs) t -> valid_between rs (gshift rs t).
Proof.
  revert t; induction rs as [|[f l] rs IH]; intros t H; inversion H; subst; simpl; constructor.
  - simpl in *. lia.
  - apply IH; auto.
Qed.

Lemma gshift_onto rs v : valid_between rs v -> exists t, valid (gext rs) t /\ gshift rs t = v.
Proof.
  revert v; induction rs as [|[f l] rs IH]; intros v H; inversion H as [|? x ? v' Hx HF]; subst.
  - exists []. split; constructor.
  - destruct (IH v' HF) as (t & A & B). exists (Z.to_nat (x - f) :: t). simpl in *. split.
    + constructor; auto. simpl. lia.
    + rewrite B. f_equal. lia.
Qed.

Lemma gshift_inj rs t t' : length t = length rs -> length t' = length rs -> gshift rs t = gshift rs t' -> t = t'.
Proof.
  revert t t'; induction rs as [|[f l] rs IH]; intros [|i t] [|j t']; simpl; intros; try lia; auto.
  injection H1 as E1 E2. f_equal; [lia|]. apply IH; auto; lia.
Qed.

(** ** permutations *)
Lemma is_perm_nodup n P : is_perm n P -> NoDup P.
Proof.
  intros (HL & _ & HI). apply (NoDup_nth P 0). intros i j Hi Hj E. rewrite HL in *. auto.
Qed.

Lemma is_perm_surj n P j : is_perm n P -> j < n -> exists i, i < n /\ nth i P 0 = j.
Proof.
  intros HP Hj. pose proof (is_perm_nodup n P HP) as HN. destruct HP as (HL & HB & HI).
  assert (Hin : In j P).
  { assert (HS : incl (seq 0 n) P).
    { apply NoDup_length_incl; auto.
      - rewrite seq_length; lia.
      - intros x Hx. apply (In_nth _ _ 0) in Hx as (i & Hi & <-). apply in_seq. specialize (HB i ltac:(lia)). lia. }
    apply HS, in_seq; lia. }
  apply (In_nth _ _ 0) in Hin as (i & Hi & E). exists i. split; auto; lia.
Qed.

Lemma seq_is_perm n : is_perm n (seq 0 n).
Proof.
  repeat split.
  - apply seq_length.
  - intros i Hi. rewrite seq_nth by auto. lia.
  - intros i j Hi Hj. rewrite !seq_nth by auto. auto.
Qed.

Lemma oupd_ok {A} i (x : A) l : i < length l -> oupd i x l = Ok (upd i x l).
Proof. intros H. unfold oupd. destruct (Nat.ltb_spec i (length l)); auto; lia. Qed.

Lemma inverse_loop_spec : forall P n inv, NoDup P -> (forall d, In d P -> d < length inv) ->
  exists inv', inverse_loop P n inv = Ok inv' /\ length inv' = length inv /\
    (forall k, k < length P -> nth (nth k P 0) inv' 0 = n + k) /\
    (forall j, ~ In j P -> nth j inv' 0 = nth j inv 0).
Proof.
  induction P as [|d P IH]; intros n inv HN HB; simpl.
  - exists inv. repeat split; auto. intros; lia.
  - inversion HN; subst. rewrite oupd_ok by (apply HB; simpl; auto). cbn [obind].
    destruct (IH (S n) (upd d n inv)) as (inv' & E & HL & HA & HO); auto.
    { intros x Hx. rewrite upd_length. apply HB; simpl; auto. }
    exists inv'. rewrite upd_length in HL. repeat split; auto.
    + intros [|k] Hk.
      * rewrite HO by auto. rewrite nth_upd_eq by (apply HB; simpl; auto). lia.
      * rewrite HA by lia. lia.
    + intros j Hj. rewrite HO by auto. rewrite nth_upd_neq by auto. reflexivity.
Qed.

Lemma permute_loop_spec {T} (d : T) : forall (P : perm) (from to : list T), length from = length P -> NoDup P ->
  (forall x, In x P -> x < length to) ->
  exists to', permute_loop P from to = Ok to' /\ length to' = length to /\
    (forall k, k < length P -> nth (nth k P 0) to' d = nth k from d) /\
    (forall j, ~ In j P -> nth j to' d = nth j to d).
Proof.
  induction P as [|p P IH]; intros from to HF HN HB; destruct from as [|x from]; simpl in *; try lia.
  - exists to. repeat split; auto. intros; lia.
  - inversion HN; subst. rewrite oupd_ok by (apply HB; auto). cbn [obind].
    destruct (IH from (upd p x to)) as (to' & E & HL & HA & HO); auto; try lia.
    { intros y Hy. rewrite upd_length. apply HB; auto. }
    exists to'. rewrite upd_length in HL. repeat split; auto.
    + intros [|k] Hk.
      * rewrite HO by auto. rewrite nth_upd_eq by (apply HB; auto). reflexivity.
      * rewrite HA by lia. reflexivity.
    + intros j Hj. rewrite HO by auto. rewrite nth_upd_neq by auto. reflexivity.
Qed.

Lemma isTrivial_from_spec : forall P n, isTrivial_from n P = true <-> P = seq n (length P).
Proof.
  induction P as [|d P IH]; intros n; simpl; [tauto|].
  destruct (Nat.eqb_spec d n) as [->|E].
  - rewrite IH. split; intros H; [now rewrite H at 1|]. injection H; auto.
  - split; [discriminate|]. intros H. injection H as E1 _. congruence.
Qed.

Section CalcPermFacts.
Context {T : Type} (teq : T -> T -> bool).
Hypothesis teq_spec : forall a b, teq a b = true <-> a = b.

Lemma find_pos_some v : forall s1 i d, find_pos teq v s1 = Some i -> i < length s1 /\ nth i s1 d = v.
Proof.
  induction s1 as [|a s1 IH]; intros i d H; simpl in *; [discriminate|].
  destruct (teq v a) eqn:E.
  - injection H as <-. apply teq_spec in E. split; [lia|auto].
  - destruct (find_pos teq v s1) as [j|] eqn:F; [|discriminate]. injection H as <-.
    destruct (IH j d eq_refl). split; [lia|auto].
Qed.

Lemma find_pos_none v : forall s1, find_pos teq v s1 = None <-> ~ In v s1.
Proof.
  induction s1 as [|a s1 IH]; simpl; [tauto|].
  destruct (teq v a) eqn:E.
  - apply teq_spec in E. split; [discriminate|]. intros H; exfalso; apply H; auto.
  - assert (a <> v) by (intros ->; rewrite (proj2 (teq_spec v v) eq_refl) in E; discriminate).
    destruct (find_pos teq v s1); simpl; split; intros K.
    + discriminate.
    + exfalso. assert (X : ~ In v s1) by tauto. apply IH in X. discriminate.
    + intros [K'|K']; [auto|]. now apply IH in K'.
    + reflexivity.
Qed.

Lemma calcPerm_loop_spec (d : T) (s1 : list T) : NoDup s1 -> forall s2 i2 P, NoDup s2 -> incl s2 s1 -> length P = length s1 ->
  exists P', calcPerm_loop teq s1 s2 i2 P = Ok P' /\ length P' = length s1 /\
    (forall i, i < length s1 -> In (nth i s1 d) s2 ->
        exists j, j < length s2 /\ nth i P' 0 = i2 + j /\ nth j s2 d = nth i s1 d) /\
    (forall i, i < length s1 -> ~ In (nth i s1 d) s2 -> nth i P' 0 = nth i P 0).
Proof.
  intros HN1. induction s2 as [|v s2 IH]; intros i2 P HN2 HI HL; simpl.
  - exists P. repeat split; auto. intros i _ [].
  - inversion HN2; subst.
    destruct (find_pos teq v s1) as [i1|] eqn:F.
    2:{ apply find_pos_none in F. exfalso. apply F, HI; simpl; auto. }
    destruct (find_pos_some v s1 i1 d F) as [F1 F2].
    rewrite oupd_ok by lia. cbn [obind].
    destruct (IH (S i2) (upd i1 i2 P)) as (P' & E & HL' & HA & HO); auto.
    { intros x Hx. apply HI; simpl; auto. }
    { rewrite upd_length; auto. }
    exists P'. repeat split; auto.
    + intros i Hi [K|K].
      * assert (i = i1). { eapply (NoDup_nth s1 d); eauto. congruence. } subst i.
        exists 0. repeat split; [lia| |congruence].
        rewrite HO; [|auto|rewrite F2; auto]. rewrite nth_upd_eq by lia. lia.
      * destruct (HA i Hi K) as (j & J1 & J2 & J3). exists (S j). repeat split; auto; lia.
    + intros i Hi K. rewrite HO by (auto; tauto). apply nth_upd_neq. intros ->. apply K. left. auto.
Qed.

Lemma calcPerm_loop_err (s1 : list T) : forall s2 i2 P, length P = length s1 -> ~ incl s2 s1 -> calcPerm_loop teq s1 s2 i2 P = Err.
Proof.
  induction s2 as [|v s2 IH]; intros i2 P HL H; simpl.
  - exfalso; apply H. intros x [].
  - destruct (find_pos teq v s1) as [i1|] eqn:F; auto.
    assert (In v s1). { destruct (in_dec (fun a b => match bool_dec (teq a b) true with left e => left (proj1 (teq_spec a b) e) | right n => right (fun k => n (proj2 (teq_spec a b) k)) end) v s1); auto. apply find_pos_none in n. congruence. }
    destruct (find_pos_some v s1 i1 v F) as [F1 _].
    rewrite oupd_ok by lia. cbn [obind]. apply IH; [rewrite upd_length; auto|].
    intros K. apply H. intros x [<-|Hx]; auto.
Qed.
End CalcPermFacts.
