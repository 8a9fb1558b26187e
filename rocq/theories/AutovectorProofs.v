From Coq Require Import List ZArith Bool Lia.
From Verif Require Import Util AutovectorModel.
Import ListNotations.
Local Open Scope Z_scope.

Section P.
Context {T : Type}.
Variable d : T.

Definition znth (l : list T) (j : Z) : T := if j <? 0 then d else nth (Z.to_nat j) l d.

Lemma zget_ok l j : 0 <= j < len l -> zget l j = Ok (znth l j).
Proof.
  intros H. unfold zget, znth, len in *. destruct (Z.ltb_spec j 0); [lia|]. unfold oget.
  rewrite (nth_error_nth' l d) by lia. reflexivity.
Qed.
Lemma zput_ok l j x : 0 <= j < len l -> exists l', zput l j x = Ok l' /\ len l' = len l /\
  forall q, znth l' q = if q =? j then x else znth l q.
Proof.
  intros H. unfold zput, len, oupd in *. destruct (Z.ltb_spec j 0); [lia|].
  destruct (Nat.ltb_spec (Z.to_nat j) (length l)); [|lia]. eexists; split; [reflexivity|]. rewrite upd_length.
  split; [auto|]. intros q. unfold znth. destruct (Z.ltb_spec q 0), (Z.eqb_spec q j); try lia; auto.
  - subst. now rewrite nth_upd_eq by lia.
  - rewrite nth_upd_neq by lia. auto.
Qed.
Lemma znth_repeat x n j : 0 <= j < Z.of_nat n -> znth (repeat x n) j = x.
Proof.
  intros H. unfold znth. destruct (Z.ltb_spec j 0); [lia|]. rewrite (nth_indep _ d x) by (rewrite repeat_length; lia).
  apply nth_repeat.
Qed.
Lemma znth_repeat_d n j : znth (repeat d n) j = d.
Proof. unfold znth. destruct (j <? 0); auto. apply nth_repeat. Qed.

Lemma copy_loop_spec old k : forall n shift new, 0 <= n -> n + Z.of_nat k <= len old ->
  0 <= shift + n -> shift + n + Z.of_nat k <= len new ->
  exists r, copy_loop k n shift old new = Ok r /\ len r = len new /\
    forall q, znth r q = if (shift + n <=? q) && (q <? shift + n + Z.of_nat k) then znth old (q - shift) else znth new q.
Proof.
  induction k as [|k IH]; intros n shift new H1 H2 H3 H4; cbn [copy_loop].
  - exists new. split; [auto|split; [auto|]]. intros q.
    destruct (Z.leb_spec (shift + n) q), (Z.ltb_spec q (shift + n + Z.of_nat 0)); cbn [andb]; auto; lia.
  - rewrite zget_ok by lia. cbn [obind]. destruct (zput_ok new (shift + n) (znth old n)) as (l' & E & L & N); [lia|].
    rewrite E. cbn [obind]. destruct (IH (n + 1) shift l') as (r & E' & L' & N'); [lia..|].
    exists r. split; [auto|split; [lia|]]. intros q. rewrite N', N.
    destruct (Z.leb_spec (shift + (n + 1)) q), (Z.ltb_spec q (shift + (n + 1) + Z.of_nat k)),
      (Z.leb_spec (shift + n) q), (Z.ltb_spec q (shift + n + Z.of_nat (S k))), (Z.eqb_spec q (shift + n)); cbn [andb]; try lia; auto.
    subst. f_equal. lia.
Qed.

(** the map shown by an autovector *)
Definition Inv (v : AV T) (m : Z -> T) : Prop :=
  (dat v = [] /\ forall i, m i = d) \/
  (dat v <> [] /\ mini v <= maxi v /\ 0 <= miniloc v /\ miniloc v + maxi v - mini v < len (dat v) /\
   (forall i, mini v <= i <= maxi v -> m i = znth (dat v) (i - mini v + miniloc v)) /\
   (forall i, i < mini v \/ maxi v < i -> m i = d) /\
   (forall j, 0 <= j < len (dat v) -> j < miniloc v \/ miniloc v + maxi v - mini v < j -> znth (dat v) j = d)).

Lemma nonempty l : @len T l > 0 -> l <> [].
Proof. intros H ->. unfold len in H. simpl in H. lia. Qed.

Lemma Inv_get v m i : Inv v m -> av_get d v i = Ok (m i).
Proof.
  intros [[E H]|(E & H1 & H2 & H3 & H4 & H5 & H6)]; unfold av_get.
  - rewrite E, H. reflexivity.
  - destruct (dat v) as [|t0 l0] eqn:Ed; [congruence|]. rewrite <- Ed in *.
    destruct (Z.ltb_spec i (mini v)), (Z.ltb_spec (maxi v) i); cbn [orb]; try (now rewrite H5 by lia).
    rewrite zget_ok by lia. now rewrite H4 by lia.
Qed.

(** the window after growing covers i, the map is unchanged *)
Definition InvAt (v : AV T) (m : Z -> T) i : Prop := Inv v m /\ dat v <> [] /\ mini v <= i <= maxi v.

Lemma grow_spec v m i : Inv v m ->
  exists v', av_grow d v i = Ok v' /\ InvAt v' m i /\
    (dat v = [] -> mini v' = i /\ maxi v' = i) /\
    (dat v <> [] -> mini v' = Z.min i (mini v) /\ maxi v' = Z.max i (maxi v)).
Proof.
  intros HI. unfold av_grow. destruct (dat v) as [|t0 l0] eqn:Ed.
  - destruct HI as [[_ H]|(E & _)]; [|congruence]. eexists; split; [reflexivity|].
    split; [|split; [simpl; auto|congruence]]. split; [|split; [discriminate|simpl; lia]].
    right. cbn [mini maxi miniloc dat]. unfold len. rewrite repeat_length. repeat split; try lia; auto.
    + discriminate.
    + intros j Hj. replace (j - i + 4) with 4 by lia. rewrite H. reflexivity.
    + intros j Hj _. apply znth_repeat_d.
  - destruct HI as [[E _]|(E & H1 & H2 & H3 & H4 & H5 & H6)]; [congruence|]. rewrite <- Ed in *.
    destruct (Z.ltb_spec i (mini v)) as [Hlo|Hlo], (Z.ltb_spec (maxi v) i) as [Hhi|Hhi]; cbn [orb]; try lia.
    3: { exists v. split; [auto|]. split; [|split; [congruence|lia]]. split; [right; repeat split; auto|split; auto; lia]. }
    all: destruct (Z.leb_spec 0 (i - mini v + miniloc v)) as [Hj0|Hj0], (Z.ltb_spec (i - mini v + miniloc v) (len (dat v))) as [Hj1|Hj1]; cbn [andb]; try lia.
    1, 3: eexists; split; [reflexivity|]; (split; [|split; [congruence|simpl; lia]]); (split; [|split; [auto|simpl; lia]]);
      right; cbn [mini maxi miniloc dat]; repeat split; auto; try lia.
    1: { intros q Hq. destruct (Z_lt_ge_dec q (mini v)).
         - rewrite H5 by lia. symmetry. apply H6; lia.
         - rewrite H4 by lia. f_equal. lia. }
    1: { intros q Hq. apply H5. lia. }
    1: { intros q Hq Hq'. apply H6; lia. }
    1: { intros q Hq. destruct (Z_lt_ge_dec (maxi v) q).
         - rewrite H5 by lia. symmetry. apply H6; lia.
         - rewrite H4 by lia. f_equal. lia. }
    1: { intros q Hq. apply H5. lia. }
    1: { intros q Hq Hq'. apply H6; lia. }
    all: set (nmi := Z.min i (mini v)); set (nma := Z.max i (maxi v));
      assert (HW : nma - nmi >= 0 /\ nmi <= mini v /\ maxi v <= nma /\ nmi <= i <= nma) by (unfold nmi, nma; lia);
      set (newlen := (nma - nmi + 8) * 2); set (nml := Z.quot (newlen - (nma - nmi + 1)) 2);
      assert (HL : 7 <= nml /\ nml + (nma - nmi) < newlen) by
       (unfold nml; rewrite Z.quot_div_nonneg by (unfold newlen; lia);
        pose proof (Z.div_mod (newlen - (nma - nmi + 1)) 2 ltac:(lia));
        pose proof (Z.mod_pos_bound (newlen - (nma - nmi + 1)) 2 ltac:(lia)); unfold newlen in *; lia);
      set (sh := nml - nmi + mini v - miniloc v);
      destruct (copy_loop_spec (dat v) (Z.to_nat (miniloc v + maxi v - mini v - miniloc v + 1)) (miniloc v) sh (repeat d (Z.to_nat newlen))) as (r & Er & Lr & Nr);
      [lia|lia|unfold sh; lia|unfold sh, len; rewrite repeat_length; lia|];
      rewrite Er; cbn [obind]; unfold len in Lr at 2; rewrite repeat_length in Lr;
      (eexists; split; [reflexivity|]); (split; [|split; [congruence|unfold nmi, nma; simpl; lia]]);
      (split; [|split; [apply nonempty; cbn [dat]; lia|cbn [mini maxi]; lia]]);
      right; cbn [mini maxi miniloc dat]; (split; [apply nonempty; lia|]); (split; [lia|]); (split; [lia|]); (split; [lia|]);
      (split; [|split]).
    1, 4: intros q Hq; rewrite Nr, znth_repeat_d;
      destruct (Z.leb_spec (sh + miniloc v) (q - nmi + nml)), (Z.ltb_spec (q - nmi + nml) (sh + miniloc v + Z.of_nat (Z.to_nat (miniloc v + maxi v - mini v - miniloc v + 1)))); cbn [andb];
      unfold sh in *; try (rewrite H5 by lia; reflexivity); rewrite H4 by lia; f_equal; lia.
    1, 3: intros q Hq; apply H5; lia.
    all: intros q Hq Hq'; rewrite Nr, znth_repeat_d;
      destruct (Z.leb_spec (sh + miniloc v) q), (Z.ltb_spec q (sh + miniloc v + Z.of_nat (Z.to_nat (miniloc v + maxi v - mini v - miniloc v + 1)))); cbn [andb]; auto;
      unfold sh in *; exfalso; lia.
Qed.

Lemma set_spec v m i x : Inv v m ->
  exists v', av_set d v i x = Ok v' /\ Inv v' (fun k => if k =? i then x else m k) /\ dat v' <> [] /\
    (dat v = [] -> mini v' = i /\ maxi v' = i) /\
    (dat v <> [] -> mini v' = Z.min i (mini v) /\ maxi v' = Z.max i (maxi v)).
Proof.
  intros HI. unfold av_set. destruct (grow_spec v m i HI) as (v1 & E & (HI1 & Hne & Hr) & HA & HB). rewrite E. cbn [obind].
  destruct HI1 as [[K _]|(_ & H1 & H2 & H3 & H4 & H5 & H6)]; [congruence|].
  destruct (zput_ok (dat v1) (i - mini v1 + miniloc v1) x) as (l' & E' & L' & N'); [lia|].
  rewrite E'. cbn [obind]. eexists; split; [reflexivity|]. cbn [mini maxi miniloc dat].
  assert (l' <> []) by (apply nonempty; lia).
  split; [|auto]. right. cbn [mini maxi miniloc dat]. rewrite L'. repeat split; auto.
  - intros k Hk. rewrite N'. destruct (Z.eqb_spec k i), (Z.eqb_spec (k - mini v1 + miniloc v1) (i - mini v1 + miniloc v1)); try lia; auto.
  - intros k Hk. destruct (Z.eqb_spec k i); [lia|]. now apply H5.
  - intros j Hj Hj'. rewrite N'. destruct (Z.eqb_spec j (i - mini v1 + miniloc v1)); [lia|]. now apply H6.
Qed.

Lemma new_spec : Inv (@av_new T) (fun _ => d).
Proof. left. auto. Qed.
Lemma range_spec a b t : a <= b + 1 -> exists v, av_range a b t = Ok v /\ mini v = a /\ maxi v = b /\
  Inv v (fun i => if (a <=? i) && (i <=? b) then t else d).
Proof.
  intros H. unfold av_range. destruct (Z.ltb_spec (b - a + 1) 0); [lia|]. eexists; split; [reflexivity|].
  split; [auto|split; [auto|]]. destruct (Z.eq_dec a (b + 1)) as [->|Hne].
  - left. simpl. replace (b - (b + 1) + 1) with 0 by lia. split; auto. intros i.
    destruct (Z.leb_spec (b + 1) i), (Z.leb_spec i b); cbn [andb]; auto; lia.
  - right. cbn [mini maxi miniloc dat].
    assert (HL : len (repeat t (Z.to_nat (b - a + 1))) = b - a + 1) by (unfold len; rewrite repeat_length; lia).
    split; [apply nonempty; lia|]. repeat split; try lia.
    + intros i Hi. destruct (Z.leb_spec a i), (Z.leb_spec i b); cbn [andb]; try lia. now rewrite znth_repeat by lia.
    + intros i Hi. destruct (Z.leb_spec a i), (Z.leb_spec i b); cbn [andb]; auto; lia.
Qed.
End P.
