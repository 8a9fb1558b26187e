(** Property C27: named arguments. *)
From Coq Require Import List Arith Bool Ascii QArith Lia.
From Verif Require Import Util InfArrayModel InfArrayProofs ArgsModel ArgsSpec ArgsProofs.
Import ListNotations.
Local Open Scope nat_scope.

(** Whatever was done to an Args object, looking up a name finds the last value given to
    it (else the global one), and the operations never fail. *)
Theorem C27_lookup_partial : forall s m g mg name, built s m -> built g mg ->
  args_lookup s g name = Ok (amap_over mg m name).
Proof.
  intros s m g mg name HB HG. apply built_Rep in HB as (l & HR & HM). apply built_Rep in HG as (lg & HRg & HMg).
  unfold args_lookup. rewrite (own_spec s l name HR), (own_spec g lg name HRg). cbn [obind]. unfold amap_over.
  rewrite <- HM, <- HMg. destruct (lmap l name); reflexivity.
Qed.

Theorem C27_operations_succeed_partial : forall s m, built s m ->
  (forall n v, exists s', args_add s (val_make n v) = Ok s') /\
  (forall n, ia_size s <> 8 -> exists s', args_remove s n = Ok s') /\
  (forall t m', built t m' -> exists s', args_merge s t = Ok s').
Proof.
  intros s m HB. apply built_Rep in HB as (l & HR & HM). split; [|split].
  - intros n v. assert (D : v = ANone \/ v <> ANone) by (destruct v; (left; reflexivity) || (right; discriminate)).
    destruct D as [->|D]; [exists s; reflexivity|].
    destruct (Rep_add s l (val_make n v) HR D) as (s1 & l1 & E1 & _). eauto.
  - intros n H8. rewrite (Rep_size s l HR) in H8. destruct (Rep_remove s l n HR H8) as (s1 & l1 & E1 & _). eauto.
  - intros t m' HT. apply built_Rep in HT as (lt & HT & _).
    destruct (Rep_merge t lt HT (ia_size t) 0 s l) as (s1 & l1 & E1 & _); eauto.
    rewrite (Rep_size t lt HT). reflexivity.
Qed.

(** The typed getters: the stored value if it has the right type (an error otherwise), the
    default only if the name is not defined. *)
Theorem C27_getters_partial : forall s m g mg name, built s m -> built g mg ->
  (forall b, amap_over mg m name = Some (ABool b) -> forall d, getter as_bool s g name d = Ok b) /\
  (forall x, amap_over mg m name = Some (AStr x) -> forall d, getter as_str s g name d = Ok x) /\
  (forall q, amap_over mg m name = Some (ANum q) -> forall d, getter as_num s g name d = Ok q) /\
  (forall z, amap_over mg m name = Some (ANum (inject_Z z)) -> forall d, getter as_int s g name d = Ok z) /\
  (amap_over mg m name = None ->
     (forall d, getter as_bool s g name (Some d) = Ok d) /\ (forall d, getter as_str s g name (Some d) = Ok d) /\
     (forall d, getter as_num s g name (Some d) = Ok d) /\ (forall d, getter as_int s g name (Some d) = Ok d) /\
     getter as_bool s g name None = Err) /\
  (forall v d, amap_over mg m name = Some v -> (forall b, v <> ABool b) -> getter as_bool s g name d = Err).
Proof.
  intros s m g mg name HB HG. unfold getter. rewrite (C27_lookup_partial s m g mg name HB HG). cbn [obind].
  split; [|split; [|split; [|split; [|split]]]].
  - intros b -> d. reflexivity.
  - intros b -> d. reflexivity.
  - intros b -> d. reflexivity.
  - intros z -> d. simpl. unfold Qtrunc. simpl. now rewrite Z.quot_1_r.
  - intros ->. repeat split.
  - intros v d -> H. destruct v; simpl; auto. exfalso. now apply (H b).
Qed.

(** "n1=v1,n2=v2,..." adds the pairs in order, with their values read as booleans, numbers
    or strings. *)
Theorem C27_text : forall strtod s l al,
  l <> [] ->
  Forall2 (fun p q => plain (fst p) /\ ~ In ","%char (snd p) /\ ~ In " "%char (snd p) /\
                      text_value strtod (snd p) = Some (snd q) /\ fst q = fst p) l al ->
  processString strtod s (args_text l) = add_pairs s al.
Proof.
  intros strtod s l al Hne HF. unfold processString.
  assert (HP : forall p, In p l -> plain (fst p) /\ ~ In " "%char (snd p)).
  { clear Hne. intros p Hp. induction HF as [|a b l' al' H HF IH]; [contradiction|]. destruct Hp as [->|Hp]; [tauto|auto]. }
  rewrite filter_id.
  - apply process_loop_pairs; auto.
    + clear - HF. induction HF as [|a b l' al' H HF IH]; constructor; auto. tauto.
    + apply le_S. exact (args_text_length l (fun p Hp => proj1 (HP p Hp))).
  - intros c Hc. apply negb_true_iff. apply ceqb_neq. intros ->. revert Hc. apply args_text_nospace.
    intros p Hp. destruct (HP p Hp) as [(_ & H & _) H']. auto.
Qed.

(** Names are stored without trailing '=' or ' ', so that both spellings work when adding,
    and a properly spelled name is stored as it is. *)
Theorem C27_names : forall n, proper_name (chopSpaceEq n) /\ (proper_name n -> chopSpaceEq n = n) /\
  (forall k, proper_name n -> chopSpaceEq (n ++ repeat "="%char k) = n).
Proof.
  intros n. split; [apply chop_proper|]. split; [apply chop_id|].
  intros k Hn. rewrite <- (chop_id n Hn) at 2. unfold chopSpaceEq. f_equal. rewrite rev_app_distr.
  replace (rev (repeat "="%char k)) with (repeat "="%char k).
  - induction k as [|k IH]; simpl; auto.
  - clear. induction k as [|k IH]; simpl; auto. rewrite <- IH. clear. induction k as [|k IH]; simpl; auto. now f_equal.
Qed.

(** But a lookup under such a spelling never finds anything: getBool("CheckQN=",true) in
    autompo.cc ignores what the caller passed. *)
Theorem C27_lookup_with_equals_refuted : forall s m g mg n v, built s m -> built g mg ->
  ~ proper_name n -> v <> ANone ->
  exists s', args_add s (val_make n v) = Ok s' /\ args_lookup s' g n = Ok None.
Proof.
  intros s m g mg n v HB HG Hn Hv.
  destruct (proj1 (C27_operations_succeed_partial s m HB) n v) as (s' & E). exists s'. split; auto.
  assert (HB' : built s' (amap_set (chopSpaceEq n) v m)) by (econstructor; eauto).
  rewrite (C27_lookup_partial s' _ g mg n HB' HG). f_equal. unfold amap_over.
  destruct (amap_set (chopSpaceEq n) v m n) eqn:K.
  - exfalso. apply Hn. eapply (built_proper s'); eauto.
  - destruct (mg n) eqn:K'; auto. exfalso. apply Hn. eapply (built_proper g); eauto.
Qed.

(** Removing a name from an Args of eight, then copying it (passing it by value): the copy
    has lost a value. *)
Definition nm (k : nat) : str := [ascii_of_nat (65 + k)].
Definition eight : outcome Args :=
  add_pairs args_new (map (fun k => (nm k, ANum (inject_Z (Z.of_nat k)))) (seq 0 8)).
Theorem C27_remove_eighth_refuted :
  exists s s', eight = Ok s /\ args_remove s (nm 0) = Ok s' /\
    args_own s' (nm 7) = Ok (Some (ANum 7)) /\
    args_own (args_copy false s') (nm 7) = Ok None /\
    args_own (args_copy false s') (nm 0) = Ok (Some (ANum 0)).
Proof.
  do 2 eexists. split; [vm_compute; reflexivity|]. split; [vm_compute; reflexivity|]. repeat split.
Qed.

(** Assigning the global Args to an Args that has entries leaves the old entries in place. *)
Theorem C27_assign_global_refuted : forall s g, args_assign s true g = s.
Proof. reflexivity. Qed.

Definition ok (o : outcome Args) : Args := match o with Ok s => s | _ => args_new end.
Example C27_nonvacuous :
  let s1 := ok (args_add args_new (val_make (nm 0) (ANum 1))) in
  let s2 := ok (args_add s1 (val_make (nm 1) (ABool true))) in
  let s3 := ok (args_add s2 (val_make (nm 0 ++ ["="%char]) (ANum 2))) in
  let s4 := ok (args_remove s3 (nm 1)) in
  (exists m, built s4 m) /\ args_lookup s4 args_new (nm 0) = Ok (Some (ANum 2)) /\
  args_lookup s4 args_new (nm 1) = Ok None.
Proof.
  intros s1 s2 s3 s4. split; [|split; vm_compute; reflexivity].
  pose proof (built_add _ _ (nm 0) (ANum 1) s1 built_new ltac:(discriminate) ltac:(vm_compute; reflexivity)) as B1.
  pose proof (built_add _ _ (nm 1) (ABool true) s2 B1 ltac:(discriminate) ltac:(vm_compute; reflexivity)) as B2.
  pose proof (built_add _ _ (nm 0 ++ ["="%char]) (ANum 2) s3 B2 ltac:(discriminate) ltac:(vm_compute; reflexivity)) as B3.
  eexists. eapply (built_remove _ _ (nm 1) s4 B3); [vm_compute; discriminate|vm_compute; reflexivity].
Qed.

Print Assumptions C27_lookup_partial.
Print Assumptions C27_operations_succeed_partial.
Print Assumptions C27_getters_partial.
Print Assumptions C27_text.
Print Assumptions C27_names.
Print Assumptions C27_lookup_with_equals_refuted.
Print Assumptions C27_remove_eighth_refuted.
Print Assumptions C27_assign_global_refuted.
