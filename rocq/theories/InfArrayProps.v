(** Property C28. *)
From Coq Require Import List Arith Bool Lia ZArith.
From Verif Require Import Util InfArrayModel InfArraySpec InfArrayProofs.
Import ListNotations.

(** Every history behaves as on an ordinary list, inline or on the heap, except that after
    an erase from ArrSize+1 to ArrSize elements only writes, clear and assign are covered
    ([avoids]); see C28_erase_boundary_refuted for why. *)
Theorem C28_history_partial : forall {T} (A : nat) (d : T) junk init ops l,
  length junk = A ->
  list_steps ops (map Some init) = Some l -> avoids A false ops (map Some init) ->
  exists s, run_ias A d junk ops (ia_list A junk init) = Ok s /\ shows s l.
Proof.
  intros T A d junk init ops l HJ HL HA.
  destruct (run_steps A d junk ops (ia_list A junk init) (map Some init) l false) as (s & b & E & HS); auto.
  { now apply Good_list. }
  exists s. split; auto. eapply St_shows; eauto.
Qed.

(** The same from InfArray(n). *)
Theorem C28_history_sized_partial : forall {T} (A : nat) (d : T) junk n ops l,
  length junk = A ->
  list_steps ops (repeat None n) = Some l -> avoids A false ops (repeat None n) ->
  exists s, run_ias A d junk ops (ia_new A d junk n) = Ok s /\ shows s l.
Proof.
  intros T A d junk n ops l HJ HL HA.
  destruct (run_steps A d junk ops (ia_new A d junk n) (repeat None n) l false) as (s & b & E & HS); auto.
  { now apply Good_new. }
  exists s. split; auto. eapply St_shows; eauto.
Qed.

(** Histories without erase are always covered. *)
Theorem C28_history_without_erase : forall {T} (A : nat) (d : T) junk init ops l,
  length junk = A -> (forall i, ~ In (OErase i) ops) ->
  list_steps ops (map Some init) = Some l ->
  exists s, run_ias A d junk ops (ia_list A junk init) = Ok s /\ shows s l.
Proof.
  intros T A d junk init ops l HJ HE HL. apply C28_history_partial; auto.
  generalize (map Some init) as l0. clear HL. induction ops as [|op ops IH]; intros l0; simpl; auto.
  destruct (list_step op l0) as [l1|]; auto. split; [discriminate|].
  assert (HE' : forall i, ~ In (OErase i) ops) by (intros i K; apply (HE i); now right).
  destruct op; try (apply IH; auto). exfalso. apply (HE i). now left.
Qed.

(** Histories that never exceed the inline capacity are always covered, erase included. *)
Fixpoint stays_inline {T} (A : nat) (ops : list (ia_op T)) (l : list (option T)) : Prop :=
  length l <= A /\
  match ops with
  | [] => True
  | op :: r => match list_step op l with Some l' => stays_inline A r l' | None => True end
  end.
Theorem C28_history_inline : forall {T} (A : nat) (d : T) junk init ops l,
  length junk = A -> stays_inline A ops (map Some init) ->
  list_steps ops (map Some init) = Some l ->
  exists s, run_ias A d junk ops (ia_list A junk init) = Ok s /\ shows s l.
Proof.
  intros T A d junk init ops l HJ HE HL. apply C28_history_partial; auto.
  revert HE. generalize (map Some init) as l0. clear HL. induction ops as [|op ops IH]; intros l0; simpl; auto.
  intros [Hl HE]. destruct (list_step op l0) as [l1|]; auto. split; [discriminate|].
  assert (E : (length l0 =? S A) = false) by (apply Nat.eqb_neq; lia).
  destruct op; try rewrite E; apply IH; auto.
Qed.

(** swap: this array shows the other's list; the other shows this one's if both are inline. *)
Theorem C28_swap_partial : forall {T} (A : nat) (junk junk' l l' : list T),
  length junk = A -> length junk' = A ->
  let r := ia_swap A (ia_list A junk l) (ia_list A junk' l') in
  shows (fst r) (map Some l') /\
  (length l <= A -> length l' <= A -> shows (snd r) (map Some l)).
Proof.
  intros T A junk junk' l l' HJ HJ' r. subst r. split.
  - pose proof (Good_copy A _ _ (Good_list A junk' l' HJ')) as H. apply Good_shows in H. exact H.
  - intros Hl Hl'. pose proof (Good_list A junk l HJ) as (HS & HA & H).
    pose proof (Good_list A junk' l' HJ') as (HS' & HA' & H').
    rewrite map_length in *. destruct H as [(_ & HP & HC)|(K & _)]; [|lia].
    destruct H' as [(_ & HP' & _)|(K & _)]; [|lia].
    unfold ia_swap, shows. cbn [fst snd ia_size]. rewrite HP', map_length. split; auto.
    intros i x E. unfold ia_get, ia_buf. cbn [ia_ptr ia_arr obind]. eapply content_get; eauto.
Qed.

(** After a swap with an array on the heap, reading the other one is undefined. *)
Theorem C28_swap_refuted : forall {T} (A : nat) junk junk' (l l' : list T) i,
  length junk = A -> A < length l' ->
  ia_get (snd (ia_swap A (ia_list A junk l) (ia_list A junk' l'))) i = UB.
Proof.
  intros T A junk junk' l l' i HJ Hl'. unfold ia_swap, ia_list.
  destruct (Nat.leb_spec (length l') A); [lia|]. reflexivity.
Qed.

(** Erasing from ArrSize+1 to ArrSize elements, then copying (or appending): the wrong
    contents, for every capacity. *)
Theorem C28_erase_boundary_refuted : forall (A : nat), 1 <= A ->
  exists (init : list nat) (ops : list (ia_op nat)) l s x,
    ops = [OPush 7; OErase 0; OCopy] /\
    list_steps ops (map Some init) = Some l /\
    run_ias A 0 (repeat 0 A) ops (ia_list A (repeat 0 A) init) = Ok s /\
    nth_error l (A - 1) = Some (Some x) /\ ia_get s (A - 1) <> Ok x.
Proof.
  intros A HA. exists (repeat 5 A), [OPush 7; OErase 0; OCopy].
  set (s0 := ia_list A (repeat 0 A) (repeat 5 A)).
  assert (E0 : s0 = mkIA PArr A (repeat 5 A) []).
  { unfold s0, ia_list, copy_into. rewrite repeat_length, Nat.leb_refl, firstn_all2 by (rewrite repeat_length; lia).
    rewrite skipn_all2 by (rewrite repeat_length; lia). now rewrite app_nil_r. }
  assert (E1 : ia_push A 0 7 s0 = Ok (mkIA PVec (S A) (repeat 5 A) (repeat 5 A ++ [7]))).
  { rewrite E0. unfold ia_push. cbn [ia_size ia_arr]. rewrite Nat.ltb_irrefl, Nat.eqb_refl. cbv zeta.
    unfold ia_resize. cbn [ia_size ia_arr ia_vec]. destruct (Nat.ltb_spec A (S A)); [|lia]. rewrite Nat.leb_refl.
    cbn [ia_size]. unfold ia_set, ia_buf, with_buf, oupd; cbn [ia_ptr ia_vec obind].
    assert (E : copy_into A (repeat 5 A) (vec_resize 0 (S A) []) = repeat 5 A ++ [0]).
    { unfold copy_into, vec_resize. rewrite firstn_nil. cbn [length app]. rewrite firstn_all2 by (rewrite repeat_length; lia).
      replace (S A - 0) with (A + 1) by lia. rewrite repeat_app, skipn_app, skipn_all2 by (rewrite repeat_length; lia).
      rewrite repeat_length, Nat.sub_diag. reflexivity. }
    rewrite E. rewrite app_length, repeat_length. cbn [length].
    replace (S A - 1) with A by lia. destruct (Nat.ltb_spec A (A + 1)); [|lia]. cbn [obind].
    assert (EU : forall y, upd A y (repeat 5 A ++ [0]) = repeat 5 A ++ [y]).
    { intros y. replace A with (length (repeat 5 A)) at 1 by apply repeat_length. apply upd_middle. }
    rewrite EU. reflexivity. }
  assert (LS : list_steps [OPush 7; OErase 0; OCopy] (map Some (repeat 5 A)) = Some (skipn 1 (map Some (repeat 5 A) ++ [Some 7]))).
  { simpl. rewrite app_length, map_length, repeat_length. destruct (Nat.ltb_spec 0 (A + length [Some 7])); [|simpl in *; lia]. reflexivity. }
  do 3 eexists. split; [reflexivity|]. split; [exact LS|]. split.
  - cbn [run_ias run_ia]. rewrite E1. cbn [obind]. unfold ia_erase. cbn [ia_ptr ia_size ia_vec].
    destruct (Nat.leb_spec (S A) A); [lia|]. rewrite app_length, repeat_length. cbn [length].
    destruct (Nat.ltb_spec 0 (A + 1)); [|lia]. cbn [obind]. reflexivity.
  - split.
    + rewrite nth_error_skipn. replace (1 + (A - 1)) with A by lia.
      rewrite nth_error_app2 by (rewrite map_length, repeat_length; lia).
      rewrite map_length, repeat_length, Nat.sub_diag. reflexivity.
    + unfold ia_copy, ia_get, ia_buf, ptr_for. cbn [ia_size ia_arr ia_vec ia_ptr].
      destruct (Nat.leb_spec (S A - 1) A); [|lia]. cbn [obind]. unfold oget.
      rewrite nth_error_repeat by lia. discriminate.
Qed.

(** A moved-from array cannot be reused. *)
Theorem C28_moved_from_refuted : forall {T} (A : nat) (d : T) junk s v, 1 <= A -> length junk = A ->
  exists s', ia_push A d v (snd (ia_move A junk s)) = Ok s' /\ ia_size s' = 1 /\ ia_get s' 0 = UB.
Proof.
  intros T A d junk s v HA HJ. unfold ia_move, ia_push. cbn [snd ia_size ia_arr].
  destruct (Nat.ltb_spec 0 A); [|lia]. unfold oupd. rewrite HJ. destruct (Nat.ltb_spec 0 A); [|lia]. cbn [obind].
  eexists; split; [reflexivity|]. split; reflexivity.
Qed.

(** == compares as lists. *)
Theorem C28_equality : forall {T} (eqb : T -> T -> bool) (s t : IA T) (l m : list T),
  (forall x y, eqb x y = true <-> x = y) -> shows s (map Some l) -> shows t (map Some m) ->
  exists b, ia_eqb eqb s t = Ok b /\ (b = true <-> l = m).
Proof.
  intros T eqb s t l m Heq Hs Ht. apply shows_full in Hs as [Hs1 Hs2]. apply shows_full in Ht as [Ht1 Ht2].
  unfold ia_eqb. rewrite Hs1, Ht1. destruct (Nat.eqb_spec (length l) (length m)) as [E|E]; cbn [negb].
  - destruct (eq_loop_spec eqb Heq s t l m Hs2 Ht2 E (length l) 0 eq_refl) as (b & E1 & E2). exists b. auto.
  - exists false. split; auto. split; [discriminate|congruence].
Qed.

(** at() checks its index. *)
Theorem C28_at : forall {T} (s : IA T) l i, shows s (map Some l) ->
  (forall x, nth_error l i = Some x -> ia_at s i = Ok x) /\ (length l <= i -> ia_at s i = Err).
Proof.
  intros T s l i H. apply shows_full in H as [H1 H2]. unfold ia_at. rewrite H1. split.
  - intros x E. assert (i < length l) by (apply nth_error_Some; congruence).
    destruct (Nat.leb_spec (length l) i); [lia|]. auto.
  - intros Hi. destruct (Nat.leb_spec (length l) i); [auto|lia].
Qed.

Example C28_nonvacuous :
  let ops := [OPush 4; OPush 5; OErase 0; OCopy; OPush 6; OResize 2; OErase 1; OSet 0 9; OMove; OPush 1] in
  list_steps ops (map Some [1; 2]) = Some [Some 9; Some 1] /\
  avoids 2 false ops (map Some [1; 2]) /\
  (exists s, run_ias 2 0 [8; 8] ops (ia_list 2 [8; 8] [1; 2]) = Ok s /\ ia_get s 0 = Ok 9 /\ ia_get s 1 = Ok 1).
Proof.
  split; [reflexivity|split].
  - simpl. repeat split; intros; discriminate.
  - eexists. split; [reflexivity|split; reflexivity].
Qed.

Print Assumptions C28_history_partial.
Print Assumptions C28_history_sized_partial.
Print Assumptions C28_history_without_erase.
Print Assumptions C28_history_inline.
Print Assumptions C28_swap_partial.
Print Assumptions C28_swap_refuted.
Print Assumptions C28_erase_boundary_refuted.
Print Assumptions C28_moved_from_refuted.
Print Assumptions C28_equality.
Print Assumptions C28_at.
