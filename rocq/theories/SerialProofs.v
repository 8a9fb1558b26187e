(** Lemmas for C30. *)
From Coq Require Import List ZArith Bool Lia Arith.
From Coq Require Import Init.Byte Strings.Byte.
From Verif Require Import Util SmallStringModel SmallStringProofs TagSetModel TagSetSpec TagSetProofs TagSetProps QnModel IndexModel SerialModel SerialSpec.
Import ListNotations.
Open Scope outcome_scope.

Lemma Ok_inj' {A : Type} (a b : A) : Ok a = Ok b -> a = b.
Proof. congruence. Qed.

(** ** integers *)
Lemma byte_of_spec z : Z.of_N (Byte.to_N (byte_of z)) = (z mod 256)%Z.
Proof.
  unfold byte_of. pose proof (Z.mod_pos_bound z 256 ltac:(lia)) as Hb.
  destruct (Byte.of_N (Z.to_N (z mod 256))) as [b|] eqn:E.
  - apply Byte.to_of_N in E. rewrite E. lia.
  - apply Byte.of_N_None_iff in E. lia.
Qed.
Lemma le_length n : forall z, length (le n z) = n.
Proof. induction n as [|n IH]; intros z; cbn [le length]; auto. Qed.
Lemma pow8 n : (2 ^ (8 * Z.of_nat (S n)) = 256 * 2 ^ (8 * Z.of_nat n))%Z.
Proof. replace (8 * Z.of_nat (S n))%Z with (8 + 8 * Z.of_nat n)%Z by lia. rewrite Z.pow_add_r by lia. reflexivity. Qed.
Lemma unle_le n : forall z, unle (le n z) = (z mod 2 ^ (8 * Z.of_nat n))%Z.
Proof.
  induction n as [|n IH]; intros z.
  - cbn [le unle]. now rewrite Z.mod_1_r.
  - cbn [le unle]. rewrite IH, byte_of_spec, pow8, Z.rem_mul_r by lia. reflexivity.
Qed.
Lemma signed_le n z : (0 < n)%nat -> (- 2 ^ (8 * Z.of_nat n - 1) <= z < 2 ^ (8 * Z.of_nat n - 1))%Z -> signed n (unle (le n z)) = z.
Proof.
  intros Hn Hz. rewrite unle_le. unfold signed.
  assert (HP : (2 ^ (8 * Z.of_nat n) = 2 * 2 ^ (8 * Z.of_nat n - 1))%Z).
  { rewrite <- Z.pow_succ_r by lia. f_equal. lia. }
  set (P := (2 ^ (8 * Z.of_nat n - 1))%Z) in *. rewrite HP.
  destruct (Z_lt_ge_dec z 0) as [Hneg|Hpos].
  - replace (z mod (2 * P))%Z with (z + 2 * P)%Z.
    2: { apply (Z.mod_unique_pos _ _ (-1)); lia. }
    destruct (Z.ltb_spec (z + 2 * P) P); lia.
  - rewrite Z.mod_small by lia. destruct (Z.ltb_spec z P); lia.
Qed.

Lemma sread_app n old w rest : length w = n -> sread n old (Some (w ++ rest)) = (w, Some rest).
Proof.
  intros <-. unfold sread. rewrite app_length.
  destruct (Nat.leb_spec (length w) (length w + length rest)); [|lia].
  rewrite firstn_app, Nat.sub_diag, firstn_all, skipn_app, Nat.sub_diag, skipn_all. cbn [firstn skipn app].
  now rewrite app_nil_r.
Qed.

Lemma rb_int old z : int_ok z -> reads_back read_int old (write_int z) z.
Proof.
  intros Hz rest. unfold read_int, read_signed, write_int. rewrite sread_app by apply le_length.
  rewrite signed_le; [reflexivity|lia|]. unfold int_ok in Hz. change (8 * Z.of_nat 4 - 1)%Z with 31%Z. lia.
Qed.
Lemma rb_long old z : long_ok z -> reads_back read_long old (write_long z) z.
Proof.
  intros Hz rest. unfold read_long, read_signed, write_long. rewrite sread_app by apply le_length.
  rewrite signed_le; [reflexivity|lia|]. unfold long_ok in Hz. change (8 * Z.of_nat 8 - 1)%Z with 63%Z. lia.
Qed.
Lemma rb_size old z : size_ok z -> reads_back read_size old (write_size z) z.
Proof.
  intros Hz rest. unfold read_size, read_unsigned, write_size. rewrite sread_app by apply le_length.
  rewrite unle_le, Z.mod_small; [reflexivity|]. exact Hz.
Qed.
Lemma rb_real old r : real_ok r -> reads_back read_real old (write_real r) r.
Proof. intros Hr rest. unfold read_real, write_real. now rewrite sread_app. Qed.

(** ** one after another *)
Lemma rb_bind {A B : Type} (ra : reader A) (rb : reader B) oa ob wa wb a b rest :
  reads_back ra oa wa a -> reads_back rb ob wb b ->
  (let! (x, s1) := ra oa (Some ((wa ++ wb) ++ rest)) in let! (y, s2) := rb ob s1 in Ok ((x, y), s2)) = Ok ((a, b), Some rest).
Proof. intros Ha Hb. rewrite <- app_assoc, Ha. cbn [obind]. rewrite Hb. reflexivity. Qed.

Lemma rb_cplx old z : cplx_ok z -> reads_back read_cplx old (write_cplx z) z.
Proof. intros [Hr Hi] rest. destruct z as [r i]. apply rb_bind; apply rb_real; auto. Qed.

Inductive all3 {A B C : Type} (P : A -> B -> C -> Prop) : list A -> list B -> list C -> Prop :=
| all3_nil : all3 P [] [] []
| all3_cons a b c la lb lc : P a b c -> all3 P la lb lc -> all3 P (a :: la) (b :: lb) (c :: lc).

Lemma rb_each {T : Type} (rd : reader T) olds ws xs :
  all3 (fun o w x => reads_back rd o w x) olds ws xs -> reads_back (read_each rd) olds (concat ws) xs.
Proof.
  intros H rest. induction H as [|o w x lo lw lx Hx _ IH].
  - reflexivity.
  - cbn [concat read_each]. rewrite <- app_assoc, Hx. cbn [obind]. rewrite IH. reflexivity.
Qed.
Lemma all3_any {T : Type} (rd : reader T) (wr : T -> bytes) (ok : T -> Prop) (okold : T -> Prop) :
  (forall o x, okold o -> ok x -> reads_back rd o (wr x) x) ->
  forall xs olds, length olds = length xs -> Forall okold olds -> Forall ok xs ->
    all3 (fun o w x => reads_back rd o w x) olds (map wr xs) xs.
Proof.
  intros H. induction xs as [|x xs IH]; intros [|o olds] Hl Ho Hx; try discriminate; [constructor|].
  inversion Ho; inversion Hx; subst. cbn [map]. constructor; auto.
Qed.
Lemma resize_length {A : Type} (d : A) n l : length (resize d n l) = n.
Proof. unfold resize. rewrite app_length, firstn_length, repeat_length. lia. Qed.
Lemma resize_Forall {A : Type} (P : A -> Prop) d n l : P d -> Forall P l -> Forall P (resize d n l).
Proof.
  intros Hd Hl. unfold resize. apply Forall_app. split.
  - rewrite Forall_forall in *. intros x Hx. apply Hl. rewrite <- (firstn_skipn n l). apply in_or_app. auto.
  - apply Forall_forall. intros x Hx. apply repeat_spec in Hx. now subst.
Qed.
Lemma resize_nil {A : Type} (d : A) n : resize d n [] = repeat d n.
Proof. unfold resize. rewrite firstn_nil. cbn [length app]. now rewrite Nat.sub_0_r. Qed.

Lemma rb_string old x : len_ok x -> reads_back read_string old (write_string x) x.
Proof.
  intros Hx rest. unfold read_string, write_string. rewrite <- app_assoc.
  rewrite rb_size by (split; [lia|exact Hx]). cbn [obind]. rewrite Nat2Z.id. now rewrite sread_app.
Qed.

Section Vec.
Context {T : Type} (d : T) (rd : reader T) (wr : T -> bytes) (ok okold : T -> Prop).
Context (Hrb : forall o x, okold o -> ok x -> reads_back rd o (wr x) x) (Hd : okold d).
Lemma rb_vec old xs : Forall okold old -> vec_ok ok xs -> reads_back (read_vec d rd) old (write_vec wr xs) xs.
Proof.
  intros Ho [Hl Hx] rest. unfold read_vec, write_vec. rewrite <- app_assoc.
  rewrite rb_size by (split; [lia|exact Hl]). cbn [obind]. rewrite Nat2Z.id, flat_map_concat_map.
  apply rb_each. eapply all3_any; eauto using resize_length, resize_Forall.
Qed.
Lemma rb_ia old xs : Forall okold old -> vec_ok ok xs -> reads_back (read_ia d rd) old (write_ia wr xs) xs.
Proof.
  intros Ho [Hl Hx] rest. unfold read_ia, write_ia, write_vec. rewrite <- app_assoc.
  rewrite rb_size by (split; [lia|exact Hl]). cbn [obind]. rewrite Nat2Z.id, flat_map_concat_map.
  apply rb_each. eapply all3_any; eauto using resize_length, resize_Forall.
Qed.
End Vec.
Lemma Forall_true {A : Type} (l : list A) : Forall (fun _ => True) l.
Proof. apply Forall_forall. auto. Qed.
Lemma rb_vec' {T : Type} (d : T) rd wr (ok : T -> Prop) : (forall o x, ok x -> reads_back rd o (wr x) x) ->
  forall old xs, vec_ok ok xs -> reads_back (read_vec d rd) old (write_vec wr xs) xs.
Proof. intros H old xs Hx. eapply rb_vec with (okold := fun _ => True); eauto using Forall_true. Qed.
Lemma rb_ia' {T : Type} (d : T) rd wr (ok : T -> Prop) : (forall o x, ok x -> reads_back rd o (wr x) x) ->
  forall old xs, vec_ok ok xs -> reads_back (read_ia d rd) old (write_ia wr xs) xs.
Proof. intros H old xs Hx. eapply rb_ia with (okold := fun _ => True); eauto using Forall_true. Qed.

(** ** names, quantum numbers and tags *)
Lemma ss_bytes_of s : ss_of_bytes (ss_bytes s) = s.
Proof. destruct s; reflexivity. Qed.
Lemma rb_ss old t : reads_back read_ss old (write_ss t) t.
Proof. intros rest. unfold read_ss, write_ss. rewrite sread_app by reflexivity. now rewrite ss_bytes_of. Qed.

Lemma qset32_ok m v : int_ok v -> (- 2 ^ 31 < m < 2 ^ 31)%Z ->
  ((1 < Z.abs m)%Z -> (0 <= v < Z.abs m)%Z /\ ((Z.abs m + 1) * v < 2 ^ 31)%Z) -> qset32 m v = Some v.
Proof.
  unfold int_ok. intros Hv Hm H. unfold qset32, fits32.
  assert (E1 : ((-2147483648 <=? Z.abs m) && (Z.abs m <=? 2147483647))%Z = true).
  { apply andb_true_intro. split; apply Z.leb_le; lia. }
  rewrite E1. cbn [negb].
  destruct (Z.ltb_spec 1 (Z.abs m)) as [H1|H1]; [|reflexivity]. specialize (H H1) as [H2 H3].
  assert (Ea : Z.abs v = v) by lia. rewrite Ea.
  assert (B1 : (0 <= Z.abs m * v)%Z) by (apply Z.mul_nonneg_nonneg; lia).
  rewrite Z.mul_add_distr_r, Z.mul_1_l in H3.
  repeat match goal with |- context [negb (?a && ?b)] =>
    replace (a && b) with true by (symmetry; apply andb_true_intro; split; apply Z.leb_le; lia) end.
  cbn [negb]. f_equal. rewrite Z.rem_mod_nonneg by lia.
  rewrite Z.add_comm, Z.mul_comm, Z.mod_add by lia. apply Z.mod_small. lia.
Qed.
Lemma rb_qnum old q : qnum_ok q -> reads_back read_qnum old (write_qnum q) q.
Proof.
  intros (Hv & Hm & Hq) rest. unfold read_qnum, write_qnum. rewrite <- !app_assoc.
  rewrite rb_ss. cbn [obind]. rewrite rb_int by auto. cbn [obind].
  rewrite rb_int by (unfold int_ok; lia). cbn [obind]. rewrite qset32_ok by auto. now destruct q.
Qed.
Lemma rb_qn old q : length old = 4 -> qn_ok q -> reads_back read_qn old (write_qn q) q.
Proof.
  intros Ho [Hq Hx] rest. unfold read_qn, write_qn. rewrite flat_map_concat_map. apply rb_each.
  eapply all3_any with (okold := fun _ => True); eauto using Forall_true, rb_qnum. congruence.
Qed.

Lemma api_clean_clean T : api_clean T -> clean T.
Proof.
  revert T. fix IH 2. intros T HT. destruct HT as [|o T T' HT HA HN HC H].
  - apply clean_new.
  - eapply run_op_clean; eauto. destruct o; simpl; auto.
Qed.
Lemma addTag_list_app a : forall b t, addTag_list t (a ++ b) = obind (addTag_list t a) (fun t' => addTag_list t' b).
Proof. induction a as [|x a IH]; intros b t; simpl; auto. destruct (addTag t x); simpl; auto. Qed.
(** Adding the slots of a clean tag set to one without tags gives that tag set. *)
Lemma addTag_list_all T T0 : clean T -> clean T0 -> ts_size T0 = 0 ->
  exists T', addTag_list T0 (ts_tags T) = Ok T' /\ ts_tags T' = ts_tags T /\ ts_size T' = ts_size T.
Proof.
  intros (l & W) (l0 & W0) H0. pose proof W as (E & Hl & H4 & Hs & Hf).
  assert (l0 = []) as ->. { destruct W0 as (_ & Hl0 & _). destruct l0; auto. cbn in Hl0. lia. }
  rewrite E, addTag_list_app.
  destruct (addTag_list_sorted l T0 [] (repeat ss_empty (4 - 0))) as (T1 & r1 & E1 & W1 & P1); auto.
  { simpl. rewrite repeat_length in H4. lia. }
  rewrite E1. cbn [obind app] in *.
  assert (E2 : addTag_list T1 (repeat ss_empty (4 - length l)) = Ok T1).
  { destruct (Nat.eq_dec (length l) 4) as [->|Hne]; [reflexivity|]. eapply addTag_list_padding; eauto. rewrite repeat_length in H4. lia. }
  rewrite E2. exists T1. split; [reflexivity|].
  assert (C1 : clean T1). { eapply addTag_list_clean; [|exact E1]. eexists; exact W0. }
  destruct C1 as (l1 & (Ea & Hla & _)). destruct W1 as (Eb & Hlb & _).
  rewrite Ea in Eb.
  assert (l1 = l) as ->.
  { assert (EE : firstn (length l1) (l1 ++ repeat ss_empty (4 - length l1)) = firstn (length l1) (l ++ r1)) by now rewrite Eb.
    replace (length l1) with (length l) in EE at 3 by congruence.
    rewrite !firstn_app, !Nat.sub_diag, !firstn_all in EE. cbn [firstn] in EE. now rewrite !app_nil_r in EE. }
  split; congruence.
Qed.
Lemma read_tags_loop_spec l : forall tag ts rest, read_tags_loop (length l) tag ts (Some (flat_map write_ss l ++ rest)) =
  obind (addTag_list ts l) (fun ts' => Ok (ts', Some rest)).
Proof.
  induction l as [|t l IH]; intros tag ts rest; [reflexivity|].
  cbn [length read_tags_loop flat_map addTag_list]. rewrite <- app_assoc, rb_ss. cbn [obind].
  destruct (addTag ts t); cbn [obind]; auto.
Qed.
Lemma rb_tags old T : clean old -> ts_size old = 0 -> clean T -> int_ok (ts_plev T) -> reads_back read_tags old (write_tags T) T.
Proof.
  intros Ho H0 HT Hp rest. unfold read_tags, write_tags. rewrite <- app_assoc.
  replace MAX_TAGS with (length (ts_tags T)).
  2: { destruct HT as (l & (E & _ & H4 & _)). rewrite E, app_length. exact H4. }
  rewrite read_tags_loop_spec. destruct (addTag_list_all T old) as (T' & E1 & E2 & E3); auto.
  rewrite E1. cbn [obind]. rewrite rb_int by auto. cbn [obind]. unfold ts_setPrime. rewrite E2, E3. now destruct T.
Qed.

(** ** indices *)
Lemma rb_qnint old x : length (fst old) = 4 -> qn_ok (fst x) /\ long_ok (snd x) -> reads_back read_qnint old (write_qnint x) x.
Proof. intros Ho [H1 H2] rest. destruct x as [q z]. apply rb_bind; auto using rb_qn, rb_long. Qed.
Lemma rb_dat l rest : vec_ok (fun b => qn_ok (fst b) /\ long_ok (snd b)) l -> read_dat (Some (write_dat l ++ rest)) = Ok (l, Some rest).
Proof.
  intros Hl. unfold read_dat, write_dat. revert rest.
  change (reads_back (read_vec (qn0, 0%Z) read_qnint) [] (write_vec write_qnint l) l).
  apply (rb_vec (qn0, 0%Z) read_qnint write_qnint (fun b => qn_ok (fst b) /\ long_ok (snd b)) (fun o => length (fst o) = 4)); auto using rb_qnint.
Qed.
Lemma rb_arrow old d : reads_back read_arrow old (write_arrow d) d.
Proof.
  intros rest. unfold read_arrow, write_arrow. rewrite rb_int by (unfold int_ok; destruct d; cbn; lia).
  destruct d; reflexivity.
Qed.
Definition ix_blank (old : index) : Prop := clean (ix_tags old) /\ ts_size (ix_tags old) = 0.
Lemma write_index_ok J : ix_id J <> 0%N -> write_index J =
  Ok (write_tags (ix_tags J) ++ le 8 (Z.of_N (ix_id J)) ++ write_int (ix_dim J) ++ write_arrow (ix_dir J) ++ write_dat (ix_qns J)).
Proof. intros H. unfold write_index, ix_bool. destruct (N.eqb_spec (ix_id J) 0); [congruence|reflexivity]. Qed.
Lemma rb_index old J w : ix_blank old -> (ix_qns J <> [] \/ ix_qns old = []) -> index_ok J -> write_index J = Ok w ->
  reads_back read_index old w J.
Proof.
  intros (Ho1 & Ho2) Hq (H0 & Hid & Hdim & (Hc & Hp) & Hl) Hw rest. rewrite write_index_ok in Hw by auto.
  apply Ok_inj' in Hw; subst w. unfold read_index. rewrite <- !app_assoc.
  rewrite rb_tags by auto using api_clean_clean. cbn [obind].
  pose proof (rb_size (Z.of_N (ix_id old)) _ Hid) as Hrb. unfold reads_back, read_size, write_size in Hrb.
  rewrite Hrb. cbn [obind]. rewrite rb_int by auto. cbn [obind]. rewrite rb_arrow. cbn [obind].
  rewrite rb_dat by auto. cbn [obind]. rewrite N2Z.id.
  replace (match ix_qns J with [] => ix_qns old | _ :: _ => ix_qns J end) with (ix_qns J); [now destruct J|].
  destruct (ix_qns J) eqn:E; auto. destruct Hq as [Hq|Hq]; congruence.
Qed.
Lemma blank_default : ix_blank ix_default.
Proof. split; [|reflexivity]. exists []. repeat split; constructor. Qed.
Lemma rb_index_new J w : index_ok J -> write_index J = Ok w -> reads_back read_index ix_default w J.
Proof. intros. apply rb_index; auto using blank_default. Qed.

Lemma write_all_ok {T : Type} (wr : T -> outcome bytes) l w : write_all wr l = Ok w ->
  exists ws, w = concat ws /\ Forall2 (fun x v => wr x = Ok v) l ws.
Proof.
  revert w. induction l as [|x l IH]; intros w H; cbn [write_all] in H.
  - injection H as <-. exists []. split; [reflexivity|constructor].
  - destruct (wr x) as [v| |] eqn:E; try discriminate. cbn [obind] in H.
    destruct (write_all wr l) as [v'| |]; try discriminate. cbn [obind] in H. injection H as <-.
    destruct (IH v' eq_refl) as (ws & -> & Hf). exists (v :: ws). split; [reflexivity|constructor; auto].
Qed.
Lemma all3_fresh {T : Type} (rd : reader T) (wr : T -> outcome bytes) (ok : T -> Prop) d :
  (forall x w, ok x -> wr x = Ok w -> reads_back rd d w x) ->
  forall xs ws, Forall2 (fun x v => wr x = Ok v) xs ws -> Forall ok xs ->
    all3 (fun o w x => reads_back rd o w x) (repeat d (length xs)) ws xs.
Proof.
  intros H xs ws Hf. induction Hf as [|x w xs ws Hx Hf IH]; intros Hok; cbn [length repeat]; [constructor|].
  inversion Hok; subst. constructor; auto.
Qed.

Lemma rb_indstr x w : indstr_ok x -> write_indstr x = Ok w -> reads_back read_indstr (ix_default, 0%Z) w x.
Proof.
  intros [H1 H2] Hw rest. destruct x as [J t]. unfold write_indstr in Hw. cbn [fst snd] in *.
  destruct (write_index J) as [b| |] eqn:E; try discriminate. cbn [obind] in Hw. apply Ok_inj' in Hw; subst w.
  apply (rb_bind read_index read_size); cbn [fst snd]; auto using rb_index_new, rb_size.
Qed.
Lemma rb_inds is w : vec_ok indstr_ok is -> write_inds is = Ok w -> reads_back read_inds [] w is.
Proof.
  intros [Hl Hx] Hw rest. unfold write_inds in Hw. destruct (write_all write_indstr is) as [b| |] eqn:E; try discriminate.
  cbn [obind] in Hw. apply Ok_inj' in Hw; subst w. unfold read_inds, read_ia. rewrite <- app_assoc.
  rewrite rb_size by (split; [lia|exact Hl]). cbn [obind]. rewrite Nat2Z.id, resize_nil.
  apply write_all_ok in E as (ws & -> & Hf). apply rb_each.
  eapply all3_fresh; eauto using rb_indstr.
Qed.
Lemma write_all_total {T : Type} (wr : T -> outcome bytes) (ok : T -> Prop) : (forall x, ok x -> exists w, wr x = Ok w) ->
  forall l, Forall ok l -> exists w, write_all wr l = Ok w.
Proof.
  intros H. induction l as [|x l IH]; intros Hl; [eexists; reflexivity|]. inversion Hl; subst.
  destruct (H x) as (a & Ea); auto. destruct IH as (b & Eb); auto. cbn [write_all]. rewrite Ea. cbn [obind]. rewrite Eb. eexists; reflexivity.
Qed.
Lemma write_index_total J : index_ok J -> exists w, write_index J = Ok w.
Proof. intros (H0 & _). rewrite write_index_ok by auto. eexists; reflexivity. Qed.
Lemma write_inds_total is : vec_ok indstr_ok is -> exists w, write_inds is = Ok w.
Proof.
  intros [_ Hx]. unfold write_inds.
  destruct (write_all_total write_indstr indstr_ok) with (l := is) as (w & E); auto.
  - intros x [Hi _]. unfold write_indstr. destruct (write_index_total (fst x)) as (w & E); auto. rewrite E. eexists; reflexivity.
  - rewrite E. eexists; reflexivity.
Qed.

(** ** Args *)
Lemma rb_vtype old t : reads_back read_vtype old (write_int (vtype_int t)) t.
Proof.
  intros rest. unfold read_vtype. rewrite rb_int by (unfold int_ok; destruct t; cbn; lia). destruct t; reflexivity.
Qed.
Lemma rb_val old v rest : val_ok v -> exists v', read_val old (Some (write_val v ++ rest)) = Ok (v', Some rest) /\ same_val v v'.
Proof.
  intros (H1 & H2 & H3). unfold read_val, write_val. rewrite <- !app_assoc, rb_string by auto. cbn [obind].
  rewrite rb_vtype. cbn [obind].
  destruct v as [n t x r]; unfold same_val; cbn [wv_name wv_type wv_s wv_r] in *.
  destruct t; rewrite ?rb_real, ?rb_string by auto; cbn [obind]; eexists; (split; [reflexivity|]); cbn; auto.
Qed.
Lemma rb_vals l : forall olds rest, length olds = length l -> Forall val_ok l ->
  exists l', read_each read_val olds (Some (flat_map write_val l ++ rest)) = Ok (l', Some rest) /\ Forall2 same_val l l'.
Proof.
  induction l as [|v l IH]; intros [|o olds] rest Hl Hok; try discriminate.
  - exists []. split; [reflexivity|constructor].
  - inversion Hok; subst. cbn [read_each flat_map]. rewrite <- app_assoc.
    destruct (rb_val o v (flat_map write_val l ++ rest)) as (v' & E & Hs); auto. rewrite E. cbn [obind].
    destruct (IH olds rest) as (l' & E' & Hs'); auto. rewrite E'. cbn [obind]. eexists; split; [reflexivity|constructor; auto].
Qed.

(** ** storage *)
Lemma rb_blof old x : blof_ok x -> reads_back read_blof old (write_blof x) x.
Proof.
  intros [H1 H2] rest. destruct x as [b o]. apply rb_bind; auto using rb_long.
  apply rb_ia' with (ok := long_ok); auto. intros; apply rb_long; auto.
Qed.
Lemma rb_pair old x : pair_ok x -> reads_back read_pair old (write_pair x) x.
Proof. intros [H1 H2] rest. destruct x as [a b]. apply rb_bind; auto using rb_size. Qed.
Lemma rb_triple old x : triple_ok x -> reads_back read_triple old (write_triple x) x.
Proof.
  intros (H1 & H2 & H3) rest. destruct x as [[a b] c]. unfold read_triple, write_triple. cbn [fst snd] in *.
  rewrite <- !app_assoc, rb_size by auto. cbn [obind]. rewrite rb_size by auto. cbn [obind]. rewrite rb_size by auto. reflexivity.
Qed.
Lemma rb_reals l : vec_ok real_ok l -> forall rest, read_reals (Some (write_vec write_real l ++ rest)) = Ok (l, Some rest).
Proof. intros H. apply (rb_vec' real0 read_real write_real real_ok); auto. intros; apply rb_real; auto. Qed.
Lemma rb_cplxs l : vec_ok cplx_ok l -> forall rest, read_cplxs (Some (write_vec write_cplx l ++ rest)) = Ok (l, Some rest).
Proof. intros H. apply (rb_vec' cplx0 read_cplx write_cplx cplx_ok); auto. intros; apply rb_cplx; auto. Qed.
Lemma rb_offs l : vec_ok blof_ok l -> forall rest, read_offs (Some (write_vec write_blof l ++ rest)) = Ok (l, Some rest).
Proof. intros H. apply (rb_vec' ([], 0%Z) read_blof write_blof blof_ok); auto. intros; apply rb_blof; auto. Qed.
Lemma rb_diag_r k v n l rest : real_ok v -> size_ok n -> vec_ok real_ok l ->
  read_diag real0 read_real k (Some ((write_real v ++ write_size n ++ write_vec write_real l) ++ rest)) = Ok (k v n l, Some rest).
Proof.
  intros Hv Hn Hl. unfold read_diag. rewrite <- !app_assoc, rb_real by auto. cbn [obind]. rewrite rb_size by auto. cbn [obind].
  change (read_vec real0 read_real []) with read_reals. rewrite rb_reals by auto. reflexivity.
Qed.
Lemma rb_diag_c k v n l rest : cplx_ok v -> size_ok n -> vec_ok cplx_ok l ->
  read_diag cplx0 read_cplx k (Some ((write_cplx v ++ write_size n ++ write_vec write_cplx l) ++ rest)) = Ok (k v n l, Some rest).
Proof.
  intros Hv Hn Hl. unfold read_diag. rewrite <- !app_assoc, rb_cplx by auto. cbn [obind]. rewrite rb_size by auto. cbn [obind].
  change (read_vec cplx0 read_cplx []) with read_cplxs. rewrite rb_cplxs by auto. reflexivity.
Qed.
Lemma rb_store old x : store_ok x -> (x <> Null \/ old = Null) -> forall rest,
  read_store (type_code x) old (Some (write_store x ++ rest)) = Ok (x, Some rest).
Proof.
  intros H Hn rest. destruct x; cbn [type_code read_store write_store store_ok] in *.
  - destruct Hn as [Hn|Hn]; [congruence|]. subst. reflexivity.
  - rewrite rb_reals by auto. reflexivity.
  - rewrite rb_cplxs by auto. reflexivity.
  - reflexivity.
  - apply rb_diag_r; apply H.
  - apply rb_diag_c; apply H.
  - destruct H as [H1 H2]. rewrite <- app_assoc, rb_offs by auto. cbn [obind]. rewrite rb_reals by auto. reflexivity.
  - destruct H as [H1 H2]. rewrite <- app_assoc, rb_offs by auto. cbn [obind]. rewrite rb_cplxs by auto. reflexivity.
  - destruct H as [H1 H2]. rewrite <- app_assoc.
    rewrite (rb_ia' (0, 0)%Z read_pair write_pair pair_ok) by (auto; intros; apply rb_pair; auto). cbn [obind].
    rewrite (rb_vec' (0, 0, 0)%Z read_triple write_triple triple_ok) by (auto; intros; apply rb_triple; auto). reflexivity.
  - apply rb_diag_r; apply H.
  - apply rb_diag_c; apply H.
  - rewrite rb_real by auto. reflexivity.
  - rewrite rb_cplx by auto. reflexivity.
Qed.

(** ** tensors, MPS, sites *)
Lemma rb_scale rest : read_scale (Some (write_scale ++ rest)) = Ok (Some rest).
Proof.
  unfold read_scale, write_scale. rewrite <- app_assoc, rb_real by reflexivity. cbn [obind].
  rewrite rb_int by (unfold int_ok; lia). reflexivity.
Qed.
Lemma type_code_ok x : int_ok (type_code x).
Proof. unfold int_ok. destruct x; cbn; lia. Qed.
Lemma rb_it old T w : it_inds old = [] -> (it_store T <> Null \/ it_store old = Null) -> it_ok T -> write_it T = Ok w ->
  reads_back read_it old w T.
Proof.
  intros Ho Hn [Hi Hs] Hw rest. unfold write_it in Hw. destruct (write_inds (it_inds T)) as [b| |] eqn:E; try discriminate.
  cbn [obind] in Hw. apply Ok_inj' in Hw; subst w. unfold read_it. rewrite Ho, <- !app_assoc.
  rewrite (rb_inds _ _ Hi E). cbn [obind]. rewrite rb_scale. cbn [obind].
  rewrite rb_int by apply type_code_ok. cbn [obind]. rewrite rb_store by auto. now destruct T.
Qed.
Lemma write_it_total T : it_ok T -> exists w, write_it T = Ok w.
Proof. intros [Hi _]. unfold write_it. destruct (write_inds_total _ Hi) as (w & ->). eexists; reflexivity. Qed.
Lemma rb_mps old M w : m_a old = [] \/ m_a old = repeat it_default (length (m_a old)) -> mps_ok M -> write_mps M = Ok w ->
  reads_back read_mps old w M.
Proof.
  intros Ho (H0 & Hn & Hl & Ha & Hl1 & Hr1) Hw rest. unfold write_mps in Hw.
  destruct (write_all write_it (m_a M)) as [b| |] eqn:E; try discriminate.
  cbn [obind] in Hw. apply Ok_inj' in Hw; subst w. unfold read_mps. rewrite <- !app_assoc.
  rewrite rb_int by auto. cbn [obind].
  assert (ER : resize it_default (Z.to_nat (m_n M + 2)) (m_a old) = repeat it_default (length (m_a M))).
  { replace (Z.to_nat (m_n M + 2)) with (length (m_a M)) by lia.
    destruct Ho as [->| ->]; [apply resize_nil|]. unfold resize. rewrite repeat_length.
    generalize (length (m_a M)) (length (m_a old)). clear. intros n k.
    rewrite firstn_repeat', <- repeat_app. f_equal. lia. }
  rewrite ER. apply write_all_ok in E as (ws & -> & Hf).
  assert (HR : reads_back (read_each read_it) (repeat it_default (length (m_a M))) (concat ws) (m_a M)).
  { apply rb_each. eapply all3_fresh; eauto. intros x w Hx Hw. apply rb_it; auto. }
  rewrite HR. cbn [obind]. rewrite rb_int by auto. cbn [obind]. rewrite rb_int by auto. cbn [obind]. now destruct M.
Qed.
Lemma write_mps_total M : mps_ok M -> exists w, write_mps M = Ok w.
Proof.
  intros (_ & _ & _ & Ha & _). unfold write_mps.
  destruct (write_all_total write_it it_ok write_it_total (m_a M) Ha) as (w & ->). eexists; reflexivity.
Qed.
