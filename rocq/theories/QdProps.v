(** Properties of tensors with quantum numbers: elements (C19), flux (C20), addition (C21). *)
From Coq Require Import List ZArith Lia Bool Arith Permutation Sorted Ring.
From Verif Require Import Util RangeModel RangeSpec RangeProofs RangeProps TensorModel TensorSpec TensorProofs SemProofs
  ContractModel DenseModel DenseProofs SmallStringModel QnModel QnSpec QnProofs QnProps QdModel QdSpec QdProofs QdFlux QdAdd ProductProps.
Import ListNotations.
Open Scope outcome_scope.

(** ** C19: elements *)
(** Every element can be read: it is the stored number, or 0 if its block is not stored. *)
Theorem C19_get : forall (R : Type) (r0 : R) (I : Type) (bs : I -> list nat) (is : list I) (d : qd R) (s : I -> nat),
  stored bs is d -> ranged bs is s -> qget r0 bs is d (map s is) = Ok (qval r0 bs is d s).
Proof. intros. apply qget_spec; auto. Qed.

(** Setting an element changes that element and no other, adds at most its block, and keeps the
    tensor well formed; whichever blocks were stored before. *)
Theorem C19_set : forall (R : Type) (r0 : R) (I : Type) (bs : I -> list nat) (is : list I) (d : qd R) (s : I -> nat) (v : R),
  stored bs is d -> ranged bs is s ->
  exists d', qset_elt r0 bs is d (map s is) v = Ok d' /\ stored bs is d' /\
    (forall b, has_block d' b <-> b = blockof bs is s \/ has_block d b) /\
    forall s', ranged bs is s' -> qget r0 bs is d' (map s' is) =
      if list_eq_dec Nat.eq_dec (map s is) (map s' is) then Ok v else qget r0 bs is d (map s' is).
Proof.
  intros R r0 I bs is d s v H Hr. destruct (qset_spec r0 bs is d s v H Hr) as (d' & E & H' & HB & HV).
  exists d'. split; [exact E|]. split; [exact H'|]. split; [exact HB|]. intros s' Hs'. rewrite !qget_spec by auto. rewrite HV by auto.
  destruct (list_eq_dec Nat.eq_dec (map s is) (map s' is)); reflexivity.
Qed.

(** A value past the dimension of its index: the list of blocks is read past its end. *)
Theorem C19_out_of_range_refuted : forall (R : Type) (r0 : R) (I : Type) (bs : I -> list nat) (x : I) (is : list I) (d : qd R) (s : I -> nat),
  total bs x <= s x -> qget r0 bs (x :: is) d (map s (x :: is)) = UB.
Proof.
  intros. unfold qget, getEltBlockOffset. cbn [map]. cbn [elt_loc]. rewrite locate_past by auto. reflexivity.
Qed.

(** Two indices, blocks of sizes 1 and 2; block (1,0) stored: element (2,0), then element (0,0) in a new block. *)
Example C19_nonvacuous :
  let bs := fun _ : nat => [1; 2] in let d := mkQD [([1; 0], 0)] [5; 6]%Z in
  stored bs [0; 1] d /\ ranged bs [0; 1] (fun x => 2 * (1 - x)) /\
  qget 0%Z bs [0; 1] d [2; 0] = Ok 6%Z /\ qget 0%Z bs [0; 1] d [0; 0] = Ok 0%Z /\
  qset_elt 0%Z bs [0; 1] d [0; 0] 9%Z = Ok (mkQD [([0; 0], 0); ([1; 0], 1)] [9; 5; 6]%Z).
Proof.
  cbv zeta. split; [|split; [|split; [|split]]]; try reflexivity.
  - split; cbn; [|repeat constructor]. split; auto. split; auto. repeat constructor; auto.
  - intros x [<-|[<-|[]]]; cbn; lia.
Qed.

(** ** C20: flux *)
(** A tensor made for a flux stores exactly the blocks of that flux, all zero.  For every number
    of indices, of blocks, and every set of conserved quantities. *)
Theorem C20_make : forall (R : Type) (r0 : R) (I : Type) (bs : I -> list nat) (qns : I -> list QN) (dir : I -> Arrow)
    (M : SmallString -> Z) (S : list SmallString) (is : list I) (div : QN),
  Scheme M S -> labelled bs qns M S is -> (forall x, In x is -> bs x <> []) -> Charges M S div -> is <> [] ->
  exists d, qmake r0 bs qns dir is div = Ok (Some d) /\ stored bs is d /\
    (forall b, has_block d b <-> valid (map (nblocks bs) is) b /\ has_flux qns dir M is b div) /\
    forall s, ranged bs is s -> qget r0 bs is d (map s is) = Ok r0.
Proof.
  intros R r0 I bs qns dir M S is div Sch HL Hp C Hn.
  destruct (qmake_spec r0 bs qns dir M S Sch is div HL Hp C Hn) as (d & E & HS & HB & HZ).
  exists d. split; [exact E|]. split; [exact HS|]. split; [exact HB|]. intros s Hs. rewrite qget_spec by auto. f_equal.
  destruct d as [o st]. cbn [store] in HZ. rewrite HZ. apply qval_zeros.
Qed.

(** div(T) is the flux of T's blocks: of a tensor all of whose stored blocks have flux q (and which
    stores one), div gives q. *)
Theorem C20_div : forall (R : Type) (I : Type) (bs : I -> list nat) (qns : I -> list QN) (dir : I -> Arrow)
    (M : SmallString -> Z) (S : list SmallString) (is : list I) (d : qd R) (q : QN),
  Scheme M S -> labelled bs qns M S is -> Charges M S q -> is <> [] -> stored bs is d -> offs d <> [] ->
  (forall b, has_block d b -> has_flux qns dir M is b q) ->
  exists q', calcDiv qns dir is d = Ok q' /\ qn_eqb q' q = true.
Proof.
  intros R I bs qns dir M S is d q Sch HL C Hn HS Ho HF. unfold calcDiv. destruct is as [|x is]; [congruence|].
  destruct (offs d) as [|[b o] l] eqn:E; [congruence|]. cbn [fst].
  assert (V : valid (map (nblocks bs) (x :: is)) b).
  { pose proof (stored_valid bs _ d HS) as SV. rewrite E in SV. inversion SV; subst. auto. }
  destruct (block_qn_flux bs qns dir M S Sch (x :: is) b q HL V C) as (q' & E' & _ & _ & K). exists q'. split; [exact E'|].
  apply K. apply HF. unfold has_block. rewrite E. left. reflexivity.
Qed.

(** set(): if the element's block has the tensor's flux, all stored blocks still have it. *)
Theorem C20_set : forall (R : Type) (r0 : R) (I : Type) (bs : I -> list nat) (qns : I -> list QN) (dir : I -> Arrow)
    (M : SmallString -> Z) (is : list I) (d : qd R) (s : I -> nat) (v : R) (q : QN) d',
  stored bs is d -> ranged bs is s -> (forall b, has_block d b -> has_flux qns dir M is b q) ->
  has_flux qns dir M is (blockof bs is s) q ->
  qset_elt r0 bs is d (map s is) v = Ok d' -> forall b, has_block d' b -> has_flux qns dir M is b q.
Proof.
  intros R r0 I bs qns dir M is d s v q d' HS Hr HF Hs E b Hb.
  destruct (qset_spec r0 bs is d s v HS Hr) as (d2 & E2 & _ & HB & _). rewrite E2 in E. injection E as <-.
  apply HB in Hb as [->|Hb]; auto.
Qed.

(** But set() of an element of another flux is not refused (setEltImpl has no check): the tensor
    then holds blocks of two fluxes, and div reports only the first. *)
Theorem C20_set_other_flux_refuted :
  exists (bs : nat -> list nat) (qns : nat -> list QN) (dir : nat -> Arrow) (is : list nat) (d d' : qd Z) (s : nat -> nat),
    stored bs is d /\ ranged bs is s /\ qset_elt 0%Z bs is d (map s is) 7%Z = Ok d' /\
    exists b b' q q', has_block d' b /\ has_block d' b' /\
      block_qn qns dir qn0 is b = Ok q /\ block_qn qns dir qn0 is b' = Ok q' /\ qn_eqb q q' = false.
Proof.
  exists (fun _ => [1; 1]), (fun _ => [qn0; ex_q ex_entries1]), (fun _ => ArrOut), [0; 1], (mkQD [([0; 0], 0)] [5%Z]),
    (mkQD [([0; 0], 0); ([1; 0], 1)] [5; 7]%Z), (fun x => 1 - x).
  split; [split; cbn; [split; auto; split; auto; repeat constructor; auto|repeat constructor]|].
  split; [intros x [<-|[<-|[]]]; cbn; lia|]. split; [reflexivity|].
  exists [0; 0], [1; 0]. eexists; eexists. split; [left; reflexivity|]. split; [right; left; reflexivity|].
  split; [vm_compute; reflexivity|]. split; [vm_compute; reflexivity|]. vm_compute. reflexivity.
Qed.

Definition c20_qns (_ : nat) : list QN := [qn0; ex_q ex_entries1].
Definition c20_bs (_ : nat) : list nat := [1; 2].
Definition c20_dir (x : nat) : Arrow := if x =? 0 then ArrOut else ArrIn.
Lemma c20_labelled is : labelled c20_bs c20_qns ex_mod ex_names is.
Proof. intros x _. split; [reflexivity|]. constructor; [constructor|]. constructor; [exact ex_charges1|constructor]. Qed.
(** An operator-like tensor (one index out, one in) of zero flux has the two diagonal blocks; of the
    flux of the second block, only block (1,0). *)
Example C20_nonvacuous : Scheme ex_mod ex_names /\ labelled c20_bs c20_qns ex_mod ex_names [0; 1] /\
  qmake 0%Z c20_bs c20_qns c20_dir [0; 1] qn0 = Ok (Some (mkQD [([0; 0], 0); ([1; 1], 1)] [0; 0; 0; 0; 0]%Z)) /\
  qmake 0%Z c20_bs c20_qns c20_dir [0; 1] (ex_q ex_entries1) = Ok (Some (mkQD [([1; 0], 0)] [0; 0]%Z)).
Proof. split; [exact ex_scheme|]. split; [apply c20_labelled|]. split; vm_compute; reflexivity. Qed.

(** ** C21: addition *)
Lemma flux_beta {I} (qns : I -> list QN) dir is (beta : I -> nat) n :
  flux_val qns dir is (map beta is) n = fold_right Z.add 0%Z (map (fun x => arrow_int (dir x) * qn_val_of (nth (beta x) (qns x) qn0) n)%Z is).
Proof. induction is as [|x is IH]; cbn [map flux_val fold_right]; auto. rewrite IH. reflexivity. Qed.
Lemma zsum_perm l l' : Permutation l l' -> fold_right Z.add 0%Z l = fold_right Z.add 0%Z l'.
Proof. induction 1; cbn; lia. Qed.
Lemma flux_perm {I} (qns : I -> list QN) dir dir' is is' (beta : I -> nat) n : Permutation is is' -> (forall x, In x is -> dir x = dir' x) ->
  flux_val qns dir is (map beta is) n = flux_val qns dir' is' (map beta is') n.
Proof.
  intros HP HD. rewrite !flux_beta.
  transitivity (fold_right Z.add 0%Z (map (fun x => arrow_int (dir' x) * qn_val_of (nth (beta x) (qns x) qn0) n)%Z is)).
  - f_equal. apply map_ext_in. intros x Hx. rewrite HD by auto. reflexivity.
  - apply zsum_perm, Permutation_map, HP.
Qed.

Lemma in_dec_incl {I} (ieq : I -> I -> bool) (ieq_spec : forall a b, ieq a b = true <-> a = b) (l l' : list I) : incl l l' \/ ~ incl l l'.
Proof.
  destruct (forallb (fun x => existsb (ieq x) l') l) eqn:E; [left|right].
  - intros x Hx. rewrite forallb_forall in E. specialize (E x Hx). apply existsb_exists in E as (y & Hy & K). apply ieq_spec in K. subst. exact Hy.
  - intros H. assert (forallb (fun x => existsb (ieq x) l') l = true); [|congruence]. apply forallb_forall. intros x Hx.
    apply existsb_exists. exists x. split; auto. apply ieq_spec. reflexivity.
Qed.
Lemma qn0_val n : 0%Z = qn_val_of qn0 n.
Proof. unfold qn0. cbn [qn_val_of qnum0 qn_name qn_val]. destruct (ss_eqb ss_empty n); reflexivity. Qed.

Lemma qeq M S q1 q2 : qn_eqb q1 q2 = true -> Scheme M S -> Charges M S q1 -> Charges M S q2 -> forall n, qn_val_of q1 n = qn_val_of q2 n.
Proof. intros H Sch C1 C2. revert H. apply (qn_eqb_iff M S); auto. Qed.

Section C21.
Context (R : Type) (r0 r1 : R) (radd rmul rsub : R -> R -> R) (ropp : R -> R).
Context (RT : ring_theory r0 r1 radd rmul rsub ropp (@eq R)).
Add Ring RRq21 : RT.
Context (I : Type) (ieq : I -> I -> bool) (ieq_spec : forall a b, ieq a b = true <-> a = b).
Context (bs : I -> list nat) (qns : I -> list QN).
Context (srt : forall X : Type, (X -> X -> bool) -> list X -> list X) (Hsrt : sorts srt).
Notation qdaxpy := (qdaxpy r0 r1 radd rmul ieq bs srt qns).

(** L + alpha*R, for tensors with the same indices in any order, whatever blocks each of them
    stores: whenever the call returns, every element is the sum. *)
Theorem C21_sum : forall (dirL dirR : I -> Arrow) (Lis Ris : list I) (A B C : qd R) (alpha : R),
  proper bs Lis -> Lis <> [] -> Permutation Ris Lis -> stored bs Lis A -> stored bs Ris B ->
  qdaxpy dirL dirR Lis A Ris B alpha = Ok C ->
  stored bs Lis C /\
  forall s, ranged bs Lis s -> qval r0 bs Lis C s = radd (qval r0 bs Lis A s) (rmul alpha (qval r0 bs Ris B s)).
Proof.
  intros dirL dirR Lis Ris A B C alpha Hp Hne HP HA HB E.
  assert (Hne2 : Ris <> []) by (intros ->; apply Permutation_nil in HP; auto).
  unfold QdModel.qdaxpy in E. rewrite (Permutation_length HP), Nat.eqb_refl in E. cbn [negb] in E.
  destruct Ris as [|x0 Ris'] eqn:ER; [congruence|]. rewrite <- ER in *.
  assert (NR : NoDup Ris) by (eapply Permutation_NoDup; [symmetry; exact HP|apply Hp]).
  destruct (offs B) as [|b0 ob] eqn:EB.
  - injection E as <-. split; [exact HA|]. intros s Hs. rewrite (qval_notin r0 bs Ris B s) by (rewrite EB; intros []). ring.
  - destruct (calcDiv qns dirL Lis A) as [ql| |]; try discriminate. cbn [obind] in E.
    destruct (calcDiv qns dirR Ris B) as [qr| |]; try discriminate. cbn [obind] in E.
    destruct (qn_eqb ql qr); try discriminate. cbn [negb] in E.
    destruct (calcPerm_through' ieq ieq_spec x0 Ris Lis NR HP) as (P & EP & HPm & HT). rewrite EP in E. cbn [obind] in E.
    destruct (checkArrows_cases ieq dirL dirR Lis Ris true) as [K|K]; rewrite K in E; try discriminate. cbn [obind] in E.
    destruct (plusEq_spec r0 r1 radd rmul rsub ropp RT ieq ieq_spec bs srt Hsrt Lis Ris x0 P alpha A B Hp Hne HPm HT HA HB) as (C' & E' & HC & _ & _ & HV).
    rewrite E' in E. injection E as <-. auto.
Qed.

(** The call returns, and the result has the same flux, for tensors of the same flux q and equal
    arrows, if L stores a block, or R stores none, or q is zero. *)
Theorem C21_add : forall (M : SmallString -> Z) (S : list SmallString) (dirL dirR : I -> Arrow) (Lis Ris : list I) (A B : qd R) (alpha : R) (q : QN),
  Scheme M S -> labelled bs qns M S Lis -> Charges M S q ->
  proper bs Lis -> Lis <> [] -> Permutation Ris Lis -> stored bs Lis A -> stored bs Ris B ->
  (forall x, In x Lis -> dirL x = dirR x) ->
  (forall b, has_block A b -> has_flux qns dirL M Lis b q) -> (forall b, has_block B b -> has_flux qns dirR M Ris b q) ->
  (offs A <> [] \/ offs B = [] \/ forall n, qn_val_of q n = 0%Z) ->
  exists C, qdaxpy dirL dirR Lis A Ris B alpha = Ok C /\ stored bs Lis C /\
    (forall b, has_block C b -> has_flux qns dirL M Lis b q) /\
    forall s, ranged bs Lis s -> qget r0 bs Lis C (map s Lis) = Ok (radd (qval r0 bs Lis A s) (rmul alpha (qval r0 bs Ris B s))).
Proof.
  intros M S dirL dirR Lis Ris A B alpha q Sch HL Cq Hp Hne HP HA HB HD FA FB Hcase.
  assert (Hne2 : Ris <> []) by (intros ->; apply Permutation_nil in HP; auto).
  assert (G : exists C, qdaxpy dirL dirR Lis A Ris B alpha = Ok C /\ (forall b, has_block C b -> has_flux qns dirL M Lis b q)).
  { unfold QdModel.qdaxpy. rewrite (Permutation_length HP), Nat.eqb_refl. cbn [negb].
    destruct Ris as [|x0 Ris'] eqn:ER; [congruence|]. rewrite <- ER in *.
    assert (NR : NoDup Ris) by (eapply Permutation_NoDup; [symmetry; exact HP|apply Hp]).
    destruct (offs B) as [|b0 ob] eqn:EB; [exists A; auto|].
    assert (HLR : labelled bs qns M S Ris) by (intros x Hx; apply HL; eapply Permutation_in; eauto).
    destruct (C20_div R I bs qns dirR M S Ris B q Sch HLR Cq Hne2 HB ltac:(congruence) FB) as (qr & Er & Kr).
    assert (exists ql, calcDiv qns dirL Lis A = Ok ql /\ qn_eqb ql qr = true) as (ql & El & Kl).
    { assert (CR : Charges M S qr).
      { unfold calcDiv in Er. rewrite ER, EB, <- ER in Er. pose proof (stored_valid bs Ris B HB) as SV. rewrite EB in SV. inversion SV; subst.
        destruct (block_qn_flux bs qns dirR M S Sch _ (fst b0) q HLR H1 Cq) as (q2 & E2 & C2 & _). rewrite Er in E2. injection E2 as <-. exact C2. }
      pose proof (qeq M S _ _ Kr Sch ltac:(assumption) ltac:(assumption)) as Kr'; clear Kr; rename Kr' into Kr.
      destruct Hcase as [Ho|[Ho|Hz]]; [|congruence|].
      - destruct (C20_div R I bs qns dirL M S Lis A q Sch HL Cq Hne HA Ho FA) as (ql & El & Kl). exists ql. split; auto.
        assert (CL : Charges M S ql).
        { unfold calcDiv in El. destruct Lis as [|y Lis'] eqn:EL; [congruence|]. rewrite <- EL in *. destruct (offs A) as [|a0 oa] eqn:EA; [congruence|].
          pose proof (stored_valid bs Lis A HA) as SV. rewrite EA in SV. inversion SV; subst.
          destruct (block_qn_flux bs qns dirL M S Sch _ (fst a0) q HL H1 Cq) as (q2 & E2 & C2 & _). rewrite El in E2. injection E2 as <-. exact C2. }
        pose proof (qeq M S _ _ Kl Sch ltac:(assumption) ltac:(assumption)) as Kl'; clear Kl; rename Kl' into Kl. apply (qn_eqb_iff M S); auto. intros n. rewrite Kl, Kr. reflexivity.
      - destruct (offs A) as [|a0 oa] eqn:EA.
        + exists qn0. split; [unfold calcDiv; rewrite EA; destruct Lis; [congruence|reflexivity]|]. apply (qn_eqb_iff M S); auto; [constructor|].
          intros n. rewrite Kr, Hz. symmetry. apply qn0_val.
        + destruct (C20_div R I bs qns dirL M S Lis A q Sch HL Cq Hne HA ltac:(congruence) FA) as (ql & El & Kl). exists ql. split; auto.
          assert (CL : Charges M S ql).
          { unfold calcDiv in El. destruct Lis as [|y Lis'] eqn:EL; [congruence|]. rewrite <- EL in *. rewrite EA in El.
            pose proof (stored_valid bs Lis A HA) as SV. rewrite EA in SV. inversion SV; subst.
            destruct (block_qn_flux bs qns dirL M S Sch _ (fst a0) q HL H1 Cq) as (q2 & E2 & C2 & _). rewrite El in E2. injection E2 as <-. exact C2. }
          pose proof (qeq M S _ _ Kl Sch ltac:(assumption) ltac:(assumption)) as Kl'; clear Kl; rename Kl' into Kl. apply (qn_eqb_iff M S); auto. intros n. rewrite Kl, Kr. reflexivity. }
    rewrite El. cbn [obind]. rewrite Er. cbn [obind]. rewrite Kl. cbn [negb].
    destruct (calcPerm_through' ieq ieq_spec x0 Ris Lis NR HP) as (P & EP & HPm & HT). rewrite EP. cbn [obind].
    rewrite (proj2 (checkArrows_same ieq ieq_spec dirL dirR Lis Ris)) by auto. cbn [obind].
    destruct (plusEq_spec r0 r1 radd rmul rsub ropp RT ieq ieq_spec bs srt Hsrt Lis Ris x0 P alpha A B Hp Hne HPm HT HA HB) as (C' & E' & HC & BC & _ & HV).
    exists C'. split; [exact E'|]. intros b Hb. apply BC in Hb as [Hb|(beta & -> & Hb)]; [apply FA; exact Hb|].
    apply FB in Hb. intros n. specialize (Hb n). rewrite <- Hb. f_equal. apply flux_perm; [symmetry; auto|auto]. }
  destruct G as (C & E & FC). destruct (C21_sum dirL dirR Lis Ris A B C alpha Hp Hne HP HA HB E) as (HC & HV).
  exists C. split; [exact E|]. split; [exact HC|]. split; [exact FC|]. intros s Hs. rewrite qget_spec by auto. f_equal. apply HV. exact Hs.
Qed.

(** Tensors whose indices differ, or whose shared indices have opposite arrows, or whose fluxes
    differ (R stores a block), are refused: nothing is added. *)
Theorem C21_refused : forall (M : SmallString -> Z) (S : list SmallString) (dirL dirR : I -> Arrow) (Lis Ris : list I) (A B : qd R) (alpha : R) (q q' : QN),
  Scheme M S -> labelled bs qns M S Lis -> labelled bs qns M S Ris -> Charges M S q -> Charges M S q' ->
  NoDup Lis -> NoDup Ris -> Lis <> [] -> Ris <> [] -> stored bs Lis A -> stored bs Ris B -> offs A <> [] -> offs B <> [] ->
  (forall b, has_block A b -> has_flux qns dirL M Lis b q) -> (forall b, has_block B b -> has_flux qns dirR M Ris b q') ->
  ~ Permutation Ris Lis \/ (exists n, qn_val_of q n <> qn_val_of q' n) \/ (exists x, In x Lis /\ In x Ris /\ dirL x <> dirR x) ->
  qdaxpy dirL dirR Lis A Ris B alpha = Err.
Proof.
  intros M S dirL dirR Lis Ris A B alpha q q' Sch HL HR Cq Cq' NL NR Hne Hne2 HA HB HoA HoB FA FB Hcase.
  unfold QdModel.qdaxpy. destruct (Nat.eqb_spec (length Lis) (length Ris)) as [EL|EL]; [|reflexivity]. cbn [negb].
  destruct Ris as [|x0 Ris'] eqn:ER; [congruence|]. rewrite <- ER in *.
  destruct (offs B) as [|b0 ob] eqn:EB; [congruence|].
  assert (VB : valid (map (nblocks bs) Ris) (fst b0)) by (pose proof (stored_valid bs Ris B HB) as SV; rewrite EB in SV; inversion SV; subst; auto).
  destruct (offs A) as [|a0 oa] eqn:EA; [congruence|].
  assert (VA : valid (map (nblocks bs) Lis) (fst a0)) by (pose proof (stored_valid bs Lis A HA) as SV; rewrite EA in SV; inversion SV; subst; auto).
  destruct (block_qn_flux bs qns dirL M S Sch Lis (fst a0) q HL VA Cq) as (ql & El & Cl & _ & Kl).
  destruct (block_qn_flux bs qns dirR M S Sch Ris (fst b0) q' HR VB Cq') as (qr & Er & Cr & _ & Kr).
  assert (Fl : qn_eqb ql q = true) by (apply Kl, FA; unfold has_block; rewrite EA; left; reflexivity).
  assert (Fr : qn_eqb qr q' = true) by (apply Kr, FB; unfold has_block; rewrite EB; left; reflexivity).
  replace (calcDiv qns dirL Lis A) with (Ok ql) by (unfold calcDiv; rewrite EA; destruct Lis; [congruence|symmetry; exact El]).
  replace (calcDiv qns dirR Ris B) with (Ok qr) by (unfold calcDiv; rewrite EB, ER, <- ER; symmetry; exact Er). cbn [obind].
  destruct (qn_eqb ql qr) eqn:EQ; [|reflexivity]. cbn [negb].
  pose proof (qeq M S _ _ EQ Sch ltac:(assumption) ltac:(assumption)) as EQ'; clear EQ; rename EQ' into EQ. pose proof (qeq M S _ _ Fl Sch ltac:(assumption) ltac:(assumption)) as Fl'; clear Fl; rename Fl' into Fl. pose proof (qeq M S _ _ Fr Sch ltac:(assumption) ltac:(assumption)) as Fr'; clear Fr; rename Fr' into Fr.
  destruct (in_dec_incl ieq ieq_spec Lis Ris) as [HI|HI].
  - assert (HPm : Permutation Ris Lis). { symmetry. apply NoDup_Permutation_bis; auto. lia. }
    destruct Hcase as [K|[(n & K)|(x & Hx & Hx' & K)]]; [contradiction|exfalso; apply K; rewrite <- Fl, <- Fr, EQ; reflexivity|].
    destruct (calcPerm_through' ieq ieq_spec x0 Ris Lis NR HPm) as (P & EP & _). rewrite EP. cbn [obind].
    destruct (checkArrows_cases ieq dirL dirR Lis Ris true) as [K'|K']; rewrite K'; [|reflexivity].
    exfalso. apply K. apply (proj1 (checkArrows_same ieq ieq_spec dirL dirR Lis Ris) K' x Hx Hx').
  - rewrite (C12_calcPerm_throws I ieq Ris Lis ieq_spec HI). reflexivity.
Qed.
End C21.

(** L without stored blocks (such as the result of a contraction without matching blocks, which is
    a zero tensor): adding a tensor of non-zero flux to it fails, as its flux counts as zero. *)
Theorem C21_zero_left_refuted : forall (R : Type) (r0 r1 : R) (radd rmul : R -> R -> R) (I : Type) (ieq : I -> I -> bool)
    (bs : I -> list nat) (qns : I -> list QN) srt (M : SmallString -> Z) (S : list SmallString) (dirL dirR : I -> Arrow) (Lis Ris : list I) (A B : qd R) (alpha : R) (q : QN) n,
  Scheme M S -> labelled bs qns M S Ris -> Charges M S q -> Ris <> [] -> stored bs Ris B -> offs B <> [] ->
  (forall b, has_block B b -> has_flux qns dirR M Ris b q) -> qn_val_of q n <> 0%Z -> offs A = [] ->
  qdaxpy r0 r1 radd rmul ieq bs srt qns dirL dirR Lis A Ris B alpha = Err.
Proof.
  intros R r0 r1 radd rmul I ieq bs qns srt M S dirL dirR Lis Ris A B alpha q n Sch HR Cq Hne HB HoB FB Hq EA.
  unfold qdaxpy. destruct (Nat.eqb_spec (length Lis) (length Ris)) as [EL|EL]; [|reflexivity]. cbn [negb].
  destruct (C20_div R I bs qns dirR M S Ris B q Sch HR Cq Hne HB HoB FB) as (qr & Er & Kr).
  assert (CR : Charges M S qr).
  { unfold calcDiv in Er. destruct Ris as [|x0 Ris'] eqn:ER; [congruence|]. rewrite <- ER in *. destruct (offs B) as [|b0 ob] eqn:EB; [congruence|].
    pose proof (stored_valid bs Ris B HB) as SV. rewrite EB in SV. inversion SV; subst.
    destruct (block_qn_flux bs qns dirR M S Sch _ (fst b0) q HR H1 Cq) as (q2 & E2 & C2 & _). rewrite Er in E2. injection E2 as <-. exact C2. }
  destruct Ris as [|x0 Ris'] eqn:ER; [congruence|]. rewrite <- ER in *. destruct (offs B) as [|b0 ob] eqn:EB; [congruence|].
  destruct Lis as [|y Lis']; [rewrite ER in EL; discriminate|].
  unfold calcDiv at 1. rewrite EA. cbn [obind]. rewrite Er. cbn [obind].
  destruct (qn_eqb qn0 qr) eqn:EQ; [|reflexivity]. exfalso. apply Hq.
  pose proof (qeq M S _ _ Kr Sch CR Cq n). pose proof (qeq M S _ _ EQ Sch (ch_zero M S) CR n). rewrite <- (qn0_val n) in *. congruence.
Qed.

(** A scalar without storage (the result of contracting all indices of two tensors without matching
    blocks): adding v to it leaves it zero. *)
Theorem C21_scalar_refuted : forall (R : Type) (r0 r1 : R) (radd rmul : R -> R -> R) (I : Type) (ieq : I -> I -> bool)
    (bs : I -> list nat) (qns : I -> list QN) srt (dirL dirR : I -> Arrow) (v alpha : R),
  let A := mkQD [] [] in let B := mkQD [([], 0)] [v] in
  stored bs [] A /\ stored bs [] B /\ qget r0 bs [] A [] = Ok r0 /\ qget r0 bs [] B [] = Ok v /\
  exists C, qdaxpy r0 r1 radd rmul ieq bs srt qns dirL dirR [] A [] B alpha = Ok C /\ qget r0 bs [] C [] = Ok r0.
Proof.
  intros R r0 r1 radd rmul I ieq bs qns srt dirL dirR v alpha A B. split; [split; cbn; [reflexivity|constructor]|].
  split; [split; cbn; [split; [reflexivity|split; [constructor|reflexivity]]|repeat constructor]|].
  split; [reflexivity|]. split; [reflexivity|]. exists (mkQD [] []). split; reflexivity.
Qed.

(** Insertion sort is one std::sort. *)
Fixpoint ins {X} (lt : X -> X -> bool) (x : X) (l : list X) : list X :=
  match l with [] => [x] | y :: l' => if lt x y then x :: l else y :: ins lt x l' end.
Definition isort X (lt : X -> X -> bool) (l : list X) : list X := fold_right (ins lt) [] l.
Lemma isort_sorts : sorts isort.
Proof.
  intros X lt l Hi Ht Hn. assert (HP : forall x l, Permutation (x :: l) (ins lt x l)).
  { intros x. induction l0 as [|y l0 IH]; cbn [ins]; [auto|]. destruct (lt x y); auto. rewrite perm_swap. rewrite IH. reflexivity. }
  assert (HS : forall x l, StronglySorted (fun a b => lt b a = false) l -> StronglySorted (fun a b => lt b a = false) (ins lt x l)).
  { intros x l0 HS. induction HS as [|y l0 HS IH HF]; cbn [ins]; [repeat constructor|]. destruct (lt x y) eqn:E.
    - constructor; [constructor; auto|]. constructor.
      + destruct (lt y x) eqn:K; auto. rewrite <- (Hi x). symmetry. apply (Ht x y x); auto.
      + rewrite Forall_forall in *. intros z Hz. apply (Hn z y x); auto. destruct (lt y x) eqn:K; auto. rewrite <- (Hi x). symmetry. apply (Ht x y x); auto.
    - constructor; auto. rewrite Forall_forall in *. intros z Hz. eapply Permutation_in in Hz; [|symmetry; apply HP]. destruct Hz as [<-|Hz]; auto. }
  unfold isort. induction l as [|x l [IH1 IH2]]; cbn [fold_right]; [split; constructor|]. split; [rewrite <- HP; constructor; auto|auto].
Qed.

(** Block (0,0) plus 2 * block (1,1) of a tensor whose indices are in the other order. *)
Example C21_nonvacuous :
  let A := mkQD [([0; 0], 0)] [5]%Z in let B := mkQD [([1; 1], 0)] [1; 2; 3; 4]%Z in
  proper c20_bs [0; 1] /\ Permutation [1; 0] [0; 1] /\ stored c20_bs [0; 1] A /\ stored c20_bs [1; 0] B /\
  (forall b, has_block A b -> has_flux c20_qns c20_dir ex_mod [0; 1] b qn0) /\ (forall b, has_block B b -> has_flux c20_qns c20_dir ex_mod [1; 0] b qn0) /\
  qdaxpy 0%Z 1%Z Z.add Z.mul Nat.eqb c20_bs isort c20_qns c20_dir c20_dir [0; 1] A [1; 0] B 2%Z =
    Ok (mkQD [([0; 0], 0); ([1; 1], 1)] [5; 2; 6; 4; 8]%Z).
Proof.
  cbv zeta. split; [|split; [|split; [|split; [|split; [|split]]]]].
  - split; [repeat constructor; cbn; intuition lia|]. intros x _. split; [discriminate|repeat constructor].
  - apply perm_swap.
  - split; cbn; [split; auto; split; auto; repeat constructor; auto|repeat constructor].
  - split; cbn; [split; auto; split; auto; repeat constructor; auto|repeat constructor].
  - intros b [<-|[]] n. cbn [flux_val c20_qns nth c20_dir Nat.eqb arrow_int fst]. rewrite <- ?(qn0_val n).
    match goal with |- residue _ ?v = _ => replace v with 0%Z by lia end. unfold residue. destruct (1 <? Z.abs (ex_mod n))%Z; reflexivity.
  - intros b [<-|[]] n. cbn [flux_val c20_qns nth c20_dir Nat.eqb arrow_int fst]. rewrite <- ?(qn0_val n).
    match goal with |- residue _ ?v = _ => replace v with 0%Z by lia end. unfold residue. destruct (1 <? Z.abs (ex_mod n))%Z; reflexivity.
  - vm_compute. reflexivity.
Qed.

Print Assumptions C19_get.
Print Assumptions C19_set.
Print Assumptions C19_out_of_range_refuted.
Print Assumptions C20_make.
Print Assumptions C20_div.
Print Assumptions C20_set.
Print Assumptions C20_set_other_flux_refuted.
Print Assumptions C21_sum.
Print Assumptions C21_add.
Print Assumptions C21_refused.
Print Assumptions C21_zero_left_refuted.
Print Assumptions C21_scalar_refuted.
