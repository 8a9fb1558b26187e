(** Property theorems C01-C03 (quantum numbers). *)
From Coq Require Import List ZArith Bool Permutation Lia.
From Coq Require Import Init.Byte.
From Verif Require Import Util SmallStringModel SmallStringProofs QnModel QnSpec QnProofs.
Import ListNotations.
Local Open Scope Z_scope.

(** ** Sample data used by the non-vacuity examples: names "Sz", "Nf", "P". *)
Definition nSz := ss_make [x53; x7a].
Definition nNf := ss_make [x4e; x66].
Definition nP := ss_make [x50].
Definition ex_names := [nSz; nNf; nP].
Definition ex_mod (n : SmallString) : Z :=
  if ss_eqb n nSz then 1 else if ss_eqb n nNf then -1 else 2.
Definition ex_entries1 := [(nSz, -3); (nP, 5)].
Definition ex_entries2 := [(nP, 1); (nNf, 4)].
Definition ex_q (e : list (SmallString * Z)) : QN :=
  match qn_make (map (fun e => qnum_make (fst e) (snd e) (ex_mod (fst e))) e) with
  | Ok q => q | _ => qn0 end.

Lemma ex_scheme : Scheme ex_mod ex_names.
Proof.
  repeat split.
  - repeat constructor; simpl; intuition discriminate.
  - simpl; lia.
  - intros n [<-|[<-|[<-|[]]]]; vm_compute; discriminate.
Qed.
Lemma ex_charges1 : Charges ex_mod ex_names (ex_q ex_entries1).
Proof.
  apply ch_make with ex_entries1; [| |vm_compute; reflexivity].
  - repeat constructor; simpl; intuition discriminate.
  - intros n v [E|[E|[]]]; inversion E; simpl; auto.
Qed.
Lemma ex_charges2 : Charges ex_mod ex_names (ex_q ex_entries2).
Proof.
  apply ch_make with ex_entries2; [| |vm_compute; reflexivity].
  - repeat constructor; simpl; intuition discriminate.
  - intros n v [E|[E|[]]]; inversion E; simpl; auto.
Qed.

(** ** C01 *)

(** Every value of a sum is the (modular) sum of the values. *)
Theorem C01_qn_add_values : forall M S q1 q2 n,
  Scheme M S -> Charges M S q1 -> Charges M S q2 ->
  qn_val_of (qn_add q1 q2) n = residue (M n) (qn_val_of q1 n + qn_val_of q2 n).
Proof. intros; now apply (qn_add_val M S). Qed.

Theorem C01_qn_neg_values : forall M S q n,
  Scheme M S -> Charges M S q ->
  qn_val_of (qn_neg q) n = residue (M n) (- qn_val_of q n).
Proof. intros; now apply (qn_neg_val M S). Qed.

Theorem C01_qn_sub_values : forall M S q1 q2 n,
  Scheme M S -> Charges M S q1 -> Charges M S q2 ->
  qn_val_of (qn_sub q1 q2) n = residue (M n) (qn_val_of q1 n - qn_val_of q2 n).
Proof. intros; now apply (qn_sub_val M S). Qed.

(** + is commutative and associative (the very same store results). *)
Theorem C01_qn_add_comm : forall M S q1 q2,
  Scheme M S -> Charges M S q1 -> Charges M S q2 -> qn_add q1 q2 = qn_add q2 q1.
Proof. intros; now apply (qn_add_comm M S). Qed.

Theorem C01_qn_add_assoc : forall M S q1 q2 q3,
  Scheme M S -> Charges M S q1 -> Charges M S q2 -> Charges M S q3 ->
  qn_add (qn_add q1 q2) q3 = qn_add q1 (qn_add q2 q3).
Proof. intros; now apply (qn_add_assoc M S). Qed.

(** QN() is neutral on both sides. *)
Theorem C01_qn_add_zero : forall M S q,
  Scheme M S -> Charges M S q -> qn_add q qn0 = q /\ qn_add qn0 q = q.
Proof.
  intros M S q Hs Hq. assert (E : qn_add q qn0 = q).
  { apply qn_add_0_r. }
  split; auto. rewrite (qn_add_comm M S); auto. constructor.
Qed.

(** -q is the inverse and q1-q2 undoes +q2, up to the library's ==. *)
Theorem C01_qn_inverse : forall M S q,
  Scheme M S -> Charges M S q -> qn_eqb (qn_add q (qn_neg q)) qn0 = true.
Proof.
  intros M S q Hs Hq. apply (qn_eqb_iff M S); auto using ch_zero, ch_add, ch_neg.
  intros n. rewrite (qn_add_val M S), (qn_neg_val M S) by auto using ch_neg.
  rewrite residue_add_r, Z.add_opp_diag_r, residue_0.
  change (qn_val_of qn0 n) with (qn_val_of (pad []) n). now rewrite val_pad.
Qed.

Theorem C01_qn_sub_undoes_add : forall M S q1 q2,
  Scheme M S -> Charges M S q1 -> Charges M S q2 ->
  qn_eqb (qn_sub (qn_add q1 q2) q2) q1 = true.
Proof.
  intros M S q1 q2 Hs H1 H2. apply (qn_eqb_iff M S); auto using ch_sub, ch_add.
  intros n. rewrite (qn_sub_val M S), (qn_add_val M S) by auto using ch_add.
  unfold Z.sub. rewrite residue_add_l. rewrite <- Z.add_assoc, Z.add_opp_diag_r, Z.add_0_r.
  now apply (qn_val_residue M S).
Qed.

(** Multiplying by an arrow. *)
Theorem C01_qn_arrow : forall M S q,
  Scheme M S -> Charges M S q -> qn_mul q ArrOut = q /\ qn_mul q ArrIn = qn_neg q.
Proof.
  intros M S q Hs Hq. split; [now apply (qn_mul_out M S)|].
  apply qn_mul_in. destruct (charges_wf M S q) as [a W]; auto. eapply wf_length; eauto.
Qed.

(** The 32-bit arithmetic of QNum::set computes the residue whenever
    |mod|*|v|+|v| does not exceed the int range... *)
Theorem C01_qset_int32 : forall m v,
  Z.abs m <= 2147483647 -> Z.abs v <= 2147483647 ->
  (1 < Z.abs m -> Z.abs m * Z.abs v + Z.abs v <= 2147483647) ->
  qset32 m v = Some (residue m v).
Proof. intros; apply qset32_ok; auto. lia. Qed.

(** ... and overflows (undefined behaviour) for representable arguments beyond it. *)
Theorem C01_qset_int32_refuted :
  exists m v, Z.abs m <= 2147483647 /\ Z.abs v <= 2147483647 /\ qset32 m v = None.
Proof. exists 3, 1000000000. vm_compute. intuition discriminate. Qed.

(** With more than four different names + silently loses a charge. *)
Theorem C01_five_names_refuted :
  exists q1 q2 n,
    (exists e1, qn_make (map (fun e => qnum_make (fst e) (snd e) 1) e1) = Ok q1 /\ NoDup (map fst e1)) /\
    (exists e2, qn_make (map (fun e => qnum_make (fst e) (snd e) 1) e2) = Ok q2) /\
    qn_val_of (qn_add q1 q2) n <> qn_val_of q1 n + qn_val_of q2 n.
Proof.
  set (nm := fun b => ss_make [b]).
  set (e1 := [(nm x61, 1); (nm x62, 1); (nm x63, 1); (nm x64, 1)]).
  set (e2 := [(nm x60, 1)]).
  set (mk := fun e => match qn_make (map (fun e => qnum_make (fst e) (snd e) 1) e) with Ok q => q | _ => qn0 end).
  exists (mk e1), (mk e2), (nm x64). repeat split.
  - exists e1. split; [vm_compute; reflexivity|]. repeat constructor; simpl; intuition discriminate.
  - exists e2. vm_compute; reflexivity.
  - vm_compute. discriminate.
Qed.

Example C01_nonvacuous :
  Scheme ex_mod ex_names /\ Charges ex_mod ex_names (ex_q ex_entries1) /\
  Charges ex_mod ex_names (ex_q ex_entries2) /\
  qn_val_of (qn_add (ex_q ex_entries1) (ex_q ex_entries2)) nP = 0 /\
  qn_val_of (ex_q ex_entries1) nP = 1 /\
  qn_val_of (qn_add (ex_q ex_entries1) (ex_q ex_entries2)) nSz = -3 /\
  qn_val_of (qn_add (ex_q ex_entries1) (ex_q ex_entries2)) nNf = 4.
Proof. repeat split; try (vm_compute; reflexivity); first [apply ex_scheme | apply ex_charges1 | apply ex_charges2]. Qed.

Print Assumptions C01_qn_add_values.
Print Assumptions C01_qn_neg_values.
Print Assumptions C01_qn_sub_values.
Print Assumptions C01_qn_add_comm.
Print Assumptions C01_qn_add_assoc.
Print Assumptions C01_qn_add_zero.
Print Assumptions C01_qn_inverse.
Print Assumptions C01_qn_sub_undoes_add.
Print Assumptions C01_qn_arrow.
Print Assumptions C01_qset_int32.
Print Assumptions C01_qset_int32_refuted.
Print Assumptions C01_five_names_refuted.

(** ** C02 *)

(** Building a QN from the same entries in another order gives the same QN. *)
Theorem C02_qn_order_independent : forall M S e1 e2,
  Scheme M S -> NoDup (map fst e1) -> (forall n v, In (n, v) e1 -> In n S) ->
  Permutation e1 e2 ->
  qn_make (map (fun e => qnum_make (fst e) (snd e) (M (fst e))) e1) =
  qn_make (map (fun e => qnum_make (fst e) (snd e) (M (fst e))) e2).
Proof. exact qn_make_perm. Qed.

(** Construction succeeds, and lookups return the reduced values, 0 for absent names. *)
Theorem C02_qn_lookup : forall M S e,
  Scheme M S -> NoDup (map fst e) -> (forall n v, In (n, v) e -> In n S) ->
  exists q, qn_make (map (fun e => qnum_make (fst e) (snd e) (M (fst e))) e) = Ok q /\
    (forall n v, In (n, v) e -> qn_val_of q n = residue (M n) v) /\
    (forall n, ~ In n (map fst e) -> qn_val_of q n = 0).
Proof.
  intros M S e Hs Hnd Hin. destruct (qn_make_total M S e) as [q E]; auto.
  exists q. repeat split; auto; intros.
  - eapply qn_make_val; eauto.
  - eapply qn_make_val_absent; eauto.
Qed.

(** == compares value assignments: absent names count as 0. *)
Theorem C02_qn_eq_extensional : forall M S q1 q2,
  Scheme M S -> Charges M S q1 -> Charges M S q2 ->
  (qn_eqb q1 q2 = true <-> forall n, qn_val_of q1 n = qn_val_of q2 n).
Proof. exact qn_eqb_iff. Qed.

(** Values are kept reduced. *)
Theorem C02_qn_values_reduced : forall M S q n,
  Scheme M S -> Charges M S q -> 1 < Z.abs (M n) -> 0 <= qn_val_of q n < Z.abs (M n).
Proof.
  intros M S q n Hs Hq Hm. rewrite <- (qn_val_residue M S q n) by auto.
  unfold residue. apply Z.ltb_lt in Hm. rewrite Hm. apply Z.ltb_lt in Hm.
  apply Z.mod_pos_bound. lia.
Qed.

(** The HDF5 round trip of a QN does not give back an equivalent store: after it,
    adding the QN to another one adds nothing. *)
Theorem C02_qn_h5_roundtrip_refuted :
  exists q q', Charges ex_mod ex_names q /\ qn_h5_roundtrip q = Ok q' /\
    qn_val_of (qn_add qn0 q) nSz = 1 /\ qn_val_of (qn_add qn0 q') nSz = 0.
Proof.
  exists (ex_q [(nSz, 1)]).
  eexists. split; [|split; [vm_compute; reflexivity|split; vm_compute; reflexivity]].
  apply ch_make with [(nSz, 1)]; [| |vm_compute; reflexivity].
  - repeat constructor; simpl; intuition discriminate.
  - intros n v [E|[]]; inversion E; simpl; auto.
Qed.

Example C02_nonvacuous :
  qn_make (map (fun e => qnum_make (fst e) (snd e) (ex_mod (fst e))) [(nSz, -3); (nP, 5); (nNf, 2)]) =
  qn_make (map (fun e => qnum_make (fst e) (snd e) (ex_mod (fst e))) [(nNf, 2); (nSz, -3); (nP, 5)])
  /\ qn_eqb (ex_q [(nSz, 0); (nP, 3)]) (ex_q [(nP, 1)]) = true
  /\ qn_eqb (ex_q ex_entries1) (ex_q ex_entries2) = false.
Proof. vm_compute; auto. Qed.

Print Assumptions C02_qn_order_independent.
Print Assumptions C02_qn_lookup.
Print Assumptions C02_qn_eq_extensional.
Print Assumptions C02_qn_values_reduced.
Print Assumptions C02_qn_h5_roundtrip_refuted.

(** ** C03 *)

(** < is the lexicographic order of the value assignments (names in key order). *)
Theorem C03_qn_lt_lexicographic : forall M S q1 q2,
  Scheme M S -> Charges M S q1 -> Charges M S q2 ->
  (qn_ltb q1 q2 = true <-> lex_lt (qn_val_of q1) (qn_val_of q2)).
Proof. exact qn_ltb_iff. Qed.

(** Hence a strict total order compatible with ==. *)
Theorem C03_qn_lt_strict_order : forall M S,
  Scheme M S ->
  (forall q, Charges M S q -> qn_ltb q q = false) /\
  (forall q1 q2 q3, Charges M S q1 -> Charges M S q2 -> Charges M S q3 ->
     qn_ltb q1 q2 = true -> qn_ltb q2 q3 = true -> qn_ltb q1 q3 = true) /\
  (forall q1 q2, Charges M S q1 -> Charges M S q2 ->
     qn_ltb q1 q2 = true \/ qn_eqb q1 q2 = true \/ qn_ltb q2 q1 = true) /\
  (forall q1 q2, Charges M S q1 -> Charges M S q2 ->
     qn_ltb q1 q2 = true -> qn_eqb q1 q2 = false /\ qn_ltb q2 q1 = false).
Proof.
  intros M S Hs. repeat split.
  - intros q Hq. destruct (qn_ltb q q) eqn:E; auto.
    apply (qn_ltb_iff M S) in E; auto. now apply lex_irrefl in E.
  - intros q1 q2 q3 H1 H2 H3. rewrite !(qn_ltb_iff M S) by auto. apply lex_trans.
  - intros. now apply (qn_total M S).
  - destruct (qn_eqb q1 q2) eqn:E; auto. apply (qn_ltb_iff M S) in H1; auto.
    rewrite (qn_eqb_iff M S) in E by auto. destruct H1 as (n & Hn & _). rewrite E in Hn. lia.
  - destruct (qn_ltb q2 q1) eqn:E; auto. apply (qn_ltb_iff M S) in H1; auto.
    apply (qn_ltb_iff M S) in E; auto. exfalso. eapply lex_irrefl, lex_trans; eauto.
Qed.

(** Without the four-name limit totality fails: two QNs that are neither ordered nor equal. *)
Theorem C03_qn_lt_five_names_refuted :
  exists e1 e2 q1 q2,
    NoDup (map fst e1) /\ NoDup (map fst e2) /\
    qn_make (map (fun e => qnum_make (fst e) (snd e) 1) e1) = Ok q1 /\
    qn_make (map (fun e => qnum_make (fst e) (snd e) 1) e2) = Ok q2 /\
    qn_ltb q1 q2 = false /\ qn_eqb q1 q2 = false /\ qn_ltb q2 q1 = false.
Proof.
  set (nm := fun b => ss_make [b]).
  exists [(nm x61, 0); (nm x62, 0); (nm x63, 0); (nm x64, 0)], [(nm x65, 1)].
  eexists. eexists. split; [|split; [|split; [vm_compute; reflexivity|split; [vm_compute; reflexivity|]]]].
  - repeat constructor; simpl; intuition discriminate.
  - repeat constructor; simpl; intuition discriminate.
  - vm_compute; auto.
Qed.

Example C03_nonvacuous :
  qn_ltb (ex_q ex_entries2) (ex_q ex_entries1) = false /\
  qn_ltb (ex_q ex_entries1) (ex_q ex_entries2) = true.
Proof. vm_compute. split; reflexivity. Qed.

Print Assumptions C03_qn_lt_lexicographic.
Print Assumptions C03_qn_lt_strict_order.
Print Assumptions C03_qn_lt_five_names_refuted.
