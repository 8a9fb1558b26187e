(** C38, C39: orthogonality limits of matrix product states; paging to disk. *)
From Coq Require Import ZArith List Bool Arith Lia Ring.
From Verif Require Import Util BigSum MpsModel MpsTensor MpsSpec MpsProofs MpsPosition MpsOrtho MpsPaging MpsWorld.
Import ListNotations.
Local Open Scope Z_scope.

Section C38.
Context {R : Type} (r0 r1 : R) (radd rmul rsub : R -> R -> R) (ropp conj : R -> R).
Context (RT : ring_theory r0 r1 radd rmul rsub ropp eq).
Notation tensor := (@tensor R).
Notation wave := (@wave R).
Variable svdl svdr : tensor -> outcome (tensor * @matrix R).
Variable splitL splitR : wave -> outcome (tensor * tensor).
Notation oL := (orthL r0 radd rmul svdl).
Notation oR := (orthR r0 radd rmul svdr).
Notation pair := (pair2 r0 radd rmul).
Notation claims := (claims r0 r1 radd rmul conj).
Notation good := (good r0 r1 radd rmul conj).
Notation LO := (left_orth r0 r1 radd rmul conj).
Notation RO := (right_orth r0 r1 radd rmul conj).

(** After any history that starts with limits 0 and N+1, the tensors outside the
    limits are orthogonal, provided the decompositions do what they promise. *)
Theorem C38_history : forall os d s s',
  svdl_ok r0 r1 radd rmul conj svdl -> svdr_ok r0 r1 radd rmul conj svdr ->
  splitl_ok r0 r1 radd rmul conj splitL -> splitr_ok r0 r1 radd rmul conj splitR ->
  mdo s = false -> 1 <= mN s -> ml s = 0 -> mr s = mN s + 1 -> filled s ->
  Forall (fun o => valid_op (mN s) o /\ joined_op (mN s) o /\ is_page o = false) os ->
  run_mem oL oR splitL splitR pair d s os = Ok s' ->
  mN s' = mN s /\ 0 <= ml s' /\ ml s' + 2 <= mr s' <= mN s' + 1 /\ filled s' /\ claims s'.
Proof.
  intros os d s s' SL SR PL PR Hm HN Hl Hr F V H.
  assert (G : good s).
  { split; [assumption|]. split; [assumption|]. split; [lia|]. split; [lia|]. split; [assumption|].
    split; intros j t Hj; lia. }
  destruct (run_good r0 r1 radd rmul rsub ropp conj RT svdl svdr splitL splitR SL SR PL PR os d s s' G V H)
    as ((_ & _ & G3 & G4 & G5 & G6) & E).
  split; [assumption|]. split; [assumption|]. split; [assumption|]. split; assumption.
Qed.

(** position(i): the state is the same, the centre is at i, and every tensor to
    its left (right) is left (right) orthogonal. *)
Theorem C38_position : forall d d' s s' i,
  svdl_ok r0 r1 radd rmul conj svdl -> svdr_ok r0 r1 radd rmul conj svdr ->
  good s -> 1 <= i <= mN s -> position oL oR d s i = Ok (d', s') ->
  isOrtho s' = true /\ orthoCenter s' = Ok i /\ same_state r0 r1 radd rmul s s' /\
  (forall j t, 1 <= j < i -> mA s' j = Some t -> LO t) /\
  (forall j t, i < j <= mN s -> mA s' j = Some t -> RO t).
Proof.
  intros d d' s s' i SL SR G Hi H.
  destruct (position_good r0 r1 radd rmul rsub ropp conj RT svdl svdr SL SR d d' s s' i G Hi H)
    as (_ & (_ & _ & _ & _ & _ & (C1 & C2)) & EN & El & Er & S).
  assert (I : isOrtho s' = true) by (unfold isOrtho; rewrite El, Er; apply Z.eqb_eq; lia).
  split; [exact I|]. split; [unfold orthoCenter; rewrite I, El; f_equal; lia|]. split; [exact S|]. split.
  - intros j t Hj. apply C1. lia.
  - intros j t Hj. apply C2. lia.
Qed.

(** position(i,{"DoSVDBond",true}): the same, and the same state when no
    singular values are dropped. *)
Theorem C38_position_svd : forall d d' s s' i,
  splitl_ok r0 r1 radd rmul conj splitL -> splitr_ok r0 r1 radd rmul conj splitR ->
  good s -> 1 <= i <= mN s -> position_svd splitL splitR pair d s i = Ok (d', s') ->
  orthoCenter s' = Ok i /\
  (forall j t, 1 <= j < i -> mA s' j = Some t -> LO t) /\
  (forall j t, i < j <= mN s -> mA s' j = Some t -> RO t) /\
  (split_exact r0 radd rmul splitL -> split_exact r0 radd rmul splitR -> same_state r0 r1 radd rmul s s').
Proof.
  intros d d' s s' i PL PR G Hi H.
  destruct (position_svd_good r0 r1 radd rmul rsub ropp conj RT splitL splitR PL PR false d d' s s' i G Hi ltac:(discriminate) H)
    as (_ & (_ & _ & _ & _ & _ & (C1 & C2)) & EN & El & Er & _).
  assert (I : isOrtho s' = true) by (unfold isOrtho; rewrite El, Er; apply Z.eqb_eq; lia).
  split; [unfold orthoCenter; rewrite I, El; f_equal; lia|]. split; [|split].
  - intros j t Hj. apply C1. lia.
  - intros j t Hj. apply C2. lia.
  - intros X1 X2.
    destruct (position_svd_good r0 r1 radd rmul rsub ropp conj RT splitL splitR PL PR true d d' s s' i G Hi (fun _ => Logic.conj X1 X2) H)
      as (_ & _ & _ & _ & _ & S). auto.
Qed.

(** When the limits say the centre is at i, the squared norm of the whole state
    (the sum over all configurations) is that of tensor i. *)
Theorem C38_norm : forall s ts i t,
  (forall x y, conj (radd x y) = radd (conj x) (conj y)) ->
  (forall x y, conj (rmul x y) = rmul (conj x) (conj y)) -> conj r0 = r0 -> conj r1 = r1 ->
  good s -> holds s ts -> proper ts -> orthoCenter s = Ok i -> mA s i = Some t ->
  norm2 r0 r1 radd rmul conj ts = tnorm2 r0 radd rmul conj t.
Proof.
  intros s ts i t Ca Cm C0 C1' (G1 & G2 & G3 & G4 & G5 & (C1 & C2)) (HL & HA) P HO Ht.
  unfold orthoCenter in HO. destruct (isOrtho s) eqn:I; [|discriminate]. injection HO as HO.
  unfold isOrtho in I. apply Z.eqb_eq in I.
  pose proof (HA (Z.to_nat (i - 1)) ltac:(lia)) as Q.
  replace (1 + Z.of_nat (Z.to_nat (i - 1))) with i in Q by lia. rewrite Ht in Q. symmetry in Q.
  destruct (nth_error_split ts _ Q) as (pre & post & E & Lp). rewrite E in P |- *.
  assert (Len : length ts = (length pre + S (length post))%nat) by (rewrite E, app_length; reflexivity).
  apply (norm2_center r0 r1 radd rmul rsub ropp conj RT Ca Cm C0 C1'); [assumption| |].
  - apply Forall_forall. intros u Hu. destruct (In_nth_error _ _ Hu) as (k & Hk).
    assert (Hkl : (k < length pre)%nat) by (apply nth_error_Some; congruence).
    apply (C1 (1 + Z.of_nat k)); [lia|]. rewrite HA by lia. rewrite E, nth_error_app1 by assumption. assumption.
  - apply Forall_forall. intros u Hu. destruct (In_nth_error _ _ Hu) as (k & Hk).
    assert (Hkl : (k < length post)%nat) by (apply nth_error_Some; congruence).
    apply (C2 (1 + Z.of_nat (S (length pre) + k))); [lia|].
    rewrite HA by lia. rewrite E, nth_error_app2 by lia.
    replace (S (length pre) + k - length pre)%nat with (S k) by lia. assumption.
Qed.

(** position terminates: with decompositions that return, it returns. *)
Theorem C38_total : forall d s i,
  (forall t, exists z, svdl t = Ok z) -> (forall t, exists z, svdr t = Ok z) ->
  mdo s = false -> 0 <= ml s -> ml s + 2 <= mr s <= mN s + 1 -> 1 <= i <= mN s ->
  exists s', position oL oR d s i = Ok (d, s').
Proof.
  intros d s i TL TR Hm H1 H2 H3. apply position_total; try assumption.
  - intros x y. unfold orthL. destruct (tj x); [|eauto]. destruct (TL x) as ([q M] & ->). cbn. eauto.
  - intros x y. unfold orthR. destruct (tj x); [|eauto]. destruct (TR y) as ([q M] & ->). cbn. eauto.
Qed.
End C38.

(** *** Examples over the integers: decompositions of tensors with one non-zero
    element, failing on all others. *)
Section Toy.
Let ZT := @tensor Z.
Definition unit_t (p : nat) (j : bool) : ZT :=
  mkT 1 2 1 j (fun a s b => if (Nat.eqb a 0 && Nat.eqb s p && Nat.eqb b 0)%bool then 1 else 0).
Definition scaled_t (k : Z) (p : nat) (j : bool) : ZT :=
  mkT 1 2 1 j (fun a s b => if (Nat.eqb a 0 && Nat.eqb s p && Nat.eqb b 0)%bool then k else 0).
Definition small (t : ZT) : bool := (Nat.eqb (tl t) 1 && Nat.eqb (tp t) 2 && Nat.eqb (tr t) 1)%bool.
Definition toy_svd (t : ZT) : outcome (ZT * @matrix Z) :=
  if small t then
    if te t 0%nat 1%nat 0%nat =? 0 then Ok (unit_t 0 (tj t), fun _ _ => te t 0%nat 0%nat 0%nat)
    else if te t 0%nat 0%nat 0%nat =? 0 then Ok (unit_t 1 (tj t), fun _ _ => te t 0%nat 1%nat 0%nat)
    else Err
  else Err.
Definition toy_split (left : bool) (w : @wave Z) : outcome (ZT * ZT) :=
  let e s s' := we w 0%nat s s' 0%nat in
  let pick p q := if left then Ok (unit_t p true, scaled_t (e p q) q (wj w))
                  else Ok (scaled_t (e p q) p true, unit_t q (wj w)) in
  if (Nat.eqb (wl w) 1 && Nat.eqb (wp1 w) 2 && Nat.eqb (wp2 w) 2 && Nat.eqb (wr w) 1)%bool then
    let z x := x =? 0 in
    if z (e 0 1)%nat && z (e 1 0)%nat && z (e 1 1)%nat then pick 0%nat 0%nat
    else if z (e 0 0)%nat && z (e 1 0)%nat && z (e 1 1)%nat then pick 0%nat 1%nat
    else if z (e 0 0)%nat && z (e 0 1)%nat && z (e 1 1)%nat then pick 1%nat 0%nat
    else if z (e 0 0)%nat && z (e 0 1)%nat && z (e 1 0)%nat then pick 1%nat 1%nat
    else Err
  else Err.
End Toy.

Lemma unit_left : forall p j, (p < 2)%nat -> left_orth 0 1 Z.add Z.mul (fun x => x) (unit_t p j).
Proof.
  intros p j Hp c c' Hc Hc'. cbn in Hc, Hc'. assert (c = 0%nat) by lia. assert (c' = 0%nat) by lia. subst.
  destruct p as [|[|p]]; [reflexivity|reflexivity|lia].
Qed.
Lemma unit_right : forall p j, (p < 2)%nat -> right_orth 0 1 Z.add Z.mul (fun x => x) (unit_t p j).
Proof.
  intros p j Hp c c' Hc Hc'. cbn in Hc, Hc'. assert (c = 0%nat) by lia. assert (c' = 0%nat) by lia. subst.
  destruct p as [|[|p]]; [reflexivity|reflexivity|lia].
Qed.
Lemma toy_small : forall t, small t = true -> tl t = 1%nat /\ tp t = 2%nat /\ tr t = 1%nat.
Proof.
  intros t H. unfold small in H. apply andb_prop in H. destruct H as (H & H3). apply andb_prop in H. destruct H as (H1 & H2).
  apply Nat.eqb_eq in H1, H2, H3. auto.
Qed.
Lemma toy_svdl_ok : svdl_ok 0 1 Z.add Z.mul (fun x => x) toy_svd.
Proof.
  intros t q M H. unfold toy_svd in H. destruct (small t) eqn:E; [|discriminate]. apply toy_small in E. destruct E as (E1 & E2 & E3).
  destruct (Z.eqb_spec (te t 0%nat 1%nat 0%nat) 0) as [Z1|Z1]; [|destruct (Z.eqb_spec (te t 0%nat 0%nat 0%nat) 0) as [Z0|Z0]; [|discriminate]].
  - injection H as <- <-. rewrite E1, E2, E3. split; [reflexivity|]. split; [reflexivity|]. split; [reflexivity|].
    split; [apply unit_left; lia|]. intros a s b Ha Hs Hb. assert (a = 0%nat) by lia. assert (b = 0%nat) by lia. subst.
    destruct s as [|[|s]]; [|rewrite Z1|lia]; cbn -[Z.mul Z.add]; ring.
  - injection H as <- <-. rewrite E1, E2, E3. split; [reflexivity|]. split; [reflexivity|]. split; [reflexivity|].
    split; [apply unit_left; lia|]. intros a s b Ha Hs Hb. assert (a = 0%nat) by lia. assert (b = 0%nat) by lia. subst.
    destruct s as [|[|s]]; [rewrite Z0| |lia]; cbn -[Z.mul Z.add]; ring.
Qed.
Lemma toy_svdr_ok : svdr_ok 0 1 Z.add Z.mul (fun x => x) toy_svd.
Proof.
  intros t q M H. unfold toy_svd in H. destruct (small t) eqn:E; [|discriminate]. apply toy_small in E. destruct E as (E1 & E2 & E3).
  destruct (Z.eqb_spec (te t 0%nat 1%nat 0%nat) 0) as [Z1|Z1]; [|destruct (Z.eqb_spec (te t 0%nat 0%nat 0%nat) 0) as [Z0|Z0]; [|discriminate]].
  - injection H as <- <-. rewrite E1, E2, E3. split; [reflexivity|]. split; [reflexivity|]. split; [reflexivity|].
    split; [apply unit_right; lia|]. intros a s b Ha Hs Hb. assert (a = 0%nat) by lia. assert (b = 0%nat) by lia. subst.
    destruct s as [|[|s]]; [|rewrite Z1|lia]; cbn -[Z.mul Z.add]; ring.
  - injection H as <- <-. rewrite E1, E2, E3. split; [reflexivity|]. split; [reflexivity|]. split; [reflexivity|].
    split; [apply unit_right; lia|]. intros a s b Ha Hs Hb. assert (a = 0%nat) by lia. assert (b = 0%nat) by lia. subst.
    destruct s as [|[|s]]; [rewrite Z0| |lia]; cbn -[Z.mul Z.add]; ring.
Qed.
Ltac toy_all H :=
  repeat match type of H with
  | context[if ?c then _ else _] => let E := fresh "E" in destruct c eqn:E; try discriminate H
  end; injection H as <- <-.
Lemma toy_splitl_ok : splitl_ok 0 1 Z.add Z.mul (fun x => x) (toy_split true).
Proof. intros w x y H. unfold toy_split in H. toy_all H; (split; [apply unit_left; lia|split; reflexivity]). Qed.
Lemma toy_splitr_ok : splitr_ok 0 1 Z.add Z.mul (fun x => x) (toy_split false).
Proof. intros w x y H. unfold toy_split in H. toy_all H; (split; [apply unit_right; lia|split; reflexivity]). Qed.
Lemma toy_exact : forall l, split_exact 0 Z.add Z.mul (toy_split l).
Proof.
  intros l w x y H. unfold toy_split in H.
  destruct (Nat.eqb (wl w) 1 && Nat.eqb (wp1 w) 2 && Nat.eqb (wp2 w) 2 && Nat.eqb (wr w) 1)%bool eqn:E; [|discriminate].
  rewrite !andb_true_iff in E. destruct E as (((E1 & E2) & E3) & E4). apply Nat.eqb_eq in E1, E2, E3, E4.
  rewrite E1, E2, E3, E4. cbv zeta in H.
  destruct l; toy_all H; repeat match goal with E : (_ && _)%bool = true |- _ => rewrite !andb_true_iff in E; destruct E as ((? & ?) & ?) end;
    repeat match goal with E : (_ =? 0) = true |- _ => apply Z.eqb_eq in E end;
    repeat (split; [reflexivity|]); intros a s s' b Ha Hs Hs' Hb; assert (a = 0%nat) by lia; assert (b = 0%nat) by lia; subst;
    destruct s as [|[|s]]; try lia; destruct s' as [|[|s']]; try lia; cbn -[Z.mul Z.add];
    repeat match goal with E : we w _ _ _ _ = 0 |- _ => rewrite ?E; clear E end; try ring.
Qed.

Definition toy_list : list (@tensor Z) := [scaled_t 3 0 true; scaled_t 5 1 true; scaled_t 7 0 false].
Definition toy_mps : mps (@tensor Z) :=
  mkMps 3 (fun j => nth_error (toy_list) (Z.to_nat (j - 1))) 0 4 1 false 0.
(** Move the centre to 3, rescale, overwrite site 2, go to 1, then to 2 by SVDs. *)
Definition toy_history : list (op (@tensor Z) (@wave Z)) :=
  [Pos 3; Scale (fun t => t); Put 2 (scaled_t 4 1 true); Pos 1; Get (-1); PosSvd 2].
Example C38_nonvacuous :
  svdl_ok 0 1 Z.add Z.mul (fun x => x) toy_svd /\ svdr_ok 0 1 Z.add Z.mul (fun x => x) toy_svd /\
  splitl_ok 0 1 Z.add Z.mul (fun x => x) (toy_split true) /\ splitr_ok 0 1 Z.add Z.mul (fun x => x) (toy_split false) /\
  split_exact 0 Z.add Z.mul (toy_split true) /\ split_exact 0 Z.add Z.mul (toy_split false) /\
  filled toy_mps /\ proper toy_list /\ holds toy_mps toy_list /\
  Forall (fun o => valid_op 3 o /\ joined_op 3 o /\ is_page o = false) toy_history /\
  match run_mem (orthL 0 Z.add Z.mul toy_svd) (orthR 0 Z.add Z.mul toy_svd) (toy_split true) (toy_split false)
          (pair2 0 Z.add Z.mul) (fun _ _ => None) toy_mps toy_history with
  | Ok s => orthoCenter s = Ok 2 /\ option_map (fun t => te t 0%nat 1%nat 0%nat) (mA s 2) = Some (3 * 5 * 7 * 4)
  | _ => False
  end.
Proof.
  split; [exact toy_svdl_ok|]. split; [exact toy_svdr_ok|]. split; [exact toy_splitl_ok|]. split; [exact toy_splitr_ok|].
  split; [apply toy_exact|]. split; [apply toy_exact|]. split; [|split; [|split; [|split]]].
  - intros j Hj. cbn in Hj. assert (j = 1 \/ j = 2 \/ j = 3) as [-> |[-> | ->]] by lia; cbn; eexists; (split; [reflexivity|]); cbn; intros; try reflexivity; lia.
  - cbn. auto.
  - split; [reflexivity|]. intros k Hk. unfold toy_mps. cbn [mA]. f_equal. lia.
  - repeat (apply Forall_cons; [split; [unfold valid_op, at_site; lia|split; [cbn; auto|reflexivity]]|]). constructor.
  - vm_compute. auto.
Qed.

(** Without a shared index between neighbours nothing is factored, but the limits
    move as if it had been: the centre is reported at site 2 while tensor 1 is
    not orthogonal. *)
Theorem C38_unlinked_refuted :
  exists (s : mps (@tensor Z)) d' s' t,
    mdo s = false /\ ml s = 0 /\ mr s = mN s + 1 /\ (forall j, 1 <= j <= mN s -> mA s j <> None) /\
    position (orthL 0 Z.add Z.mul toy_svd) (orthR 0 Z.add Z.mul toy_svd) (fun _ _ => None) s 2 = Ok (d', s') /\
    orthoCenter s' = Ok 2 /\ mA s' 1 = Some t /\ ~ left_orth 0 1 Z.add Z.mul (fun x => x) t.
Proof.
  pose (l := [scaled_t 3 0 false; scaled_t 5 1 false]).
  exists (mkMps 2 (fun j => nth_error l (Z.to_nat (j - 1))) 0 3 1 false 0%nat).
  eexists. eexists. exists (scaled_t 3 0 false).
  split; [reflexivity|]. split; [reflexivity|]. split; [reflexivity|]. split.
  { intros j Hj. cbn in Hj. assert (j = 1 \/ j = 2) as [-> | ->] by lia; discriminate. }
  split; [reflexivity|]. split; [reflexivity|]. split; [reflexivity|].
  intros H. specialize (H 0%nat 0%nat). cbn in H. specialize (H ltac:(lia) ltac:(lia)). discriminate.
Qed.

(** ref(0) on a one-site MPS (a legal position of A_) drives the left limit to -1,
    and position(1) then ends with the centre reported at 0. *)
Theorem C38_slot0_refuted :
  exists (s : mps (@tensor Z)) d s1 d2 s2,
    mdo s = false /\ mN s = 1 /\ ml s = 0 /\ mr s = 2 /\ filled s /\
    ref d s 0 = Ok (d, s1) /\
    position (orthL 0 Z.add Z.mul toy_svd) (orthR 0 Z.add Z.mul toy_svd) d s1 1 = Ok (d2, s2) /\
    orthoCenter s2 = Ok 0.
Proof.
  exists (mkMps 1 (fun j => if j =? 1 then Some (scaled_t 3 0 false) else None) 0 2 1 false 0%nat).
  exists (fun _ _ => None). eexists. eexists. eexists.
  split; [reflexivity|]. split; [reflexivity|]. split; [reflexivity|]. split; [reflexivity|]. split.
  { intros j Hj. cbn in Hj. assert (j = 1) as -> by lia. eexists. split; [reflexivity|]. cbn. lia. }
  split; [reflexivity|]. split; [vm_compute; reflexivity|]. vm_compute. reflexivity.
Qed.

(** *** C39 *)
Section C39.
Context {T W : Type}.
Variable orthL orthR : T -> T -> outcome (T * T).
Variable splitL splitR : W -> outcome (T * T).
Variable pair : T -> T -> W.
Notation wrn := (wrun orthL orthR splitL splitR pair).

(** A program over several n-site MPS shows the same tensors and limits, or fails
    at the same operation, when every doWrite(true) is deleted. *)
Theorem C39_transparent : forall n (w : world T) os,
  1 <= n -> starts n w -> Forall (valid_wop n) os -> wrn w os = wrn w (in_memory os).
Proof.
  intros n w os Hn S F. apply (wrun_sim orthL orthR splitL splitR pair os n w w); [|assumption].
  split; [|split].
  - intros k. destruct (S k) as (S1 & S2 & S3 & S4). split; [|split; [assumption|]].
    + split; [assumption|]. split; [reflexivity|]. split; [reflexivity|]. split; [reflexivity|]. split; [lia|]. split; [lia|].
      split; [|congruence]. intros j Hj. apply mem_content. assumption.
    + unfold bounds. lia.
  - intros k H. destruct (S k) as (S1 & _). congruence.
  - intros k k' _ H. destruct (S k) as (S1 & _). congruence.
Qed.

(** In memory a read returns the tensor last stored at that position, and other
    positions keep theirs. *)
Theorem C39_memory : forall (d d' : disk T) s s' i j t,
  mdo s = false -> at_site (mN s) i -> 1 <= j <= mN s ->
  modify d s i (fun _ => Some t) = Ok (d', s') ->
  exists s'', get d' s' j = Ok (d', s'', if j =? wrap s i then Some t else mA s j).
Proof.
  intros d d' s s' i j t Hm Hi Hj H.
  assert (Hw : 1 <= wrap s i <= mN s) by (destruct Hi; unfold wrap; zb; lia).
  apply modify_mem in H; [|assumption|lia]. cbn zeta in H. destruct H as (-> & H1 & H2 & H3 & H4 & H5 & H6).
  unfold get. assert (Ew : wrap s' j = j) by (unfold wrap; zb; lia). rewrite Ew.
  destruct (setSite_mem d s' j H1) as (s1 & K & N1 & A1 & _). rewrite K. cbn [obind].
  rewrite inrange_slot by (unfold slot; lia). exists s1. rewrite A1.
  destruct (Z.eqb_spec j (wrap s i)) as [->|Hn]; [rewrite H5|rewrite H6 by assumption]; reflexivity.
Qed.


(** doWrite(false): when every tensor has a current file, the tensors come back
    into memory (the limits are reset to 0 and N+1). *)
Theorem C39_unload_partial : forall (d : disk T) (s : mps T) fresh,
  mdo s = true -> (forall j, 0 <= j <= mN s + 1 -> d (mdir s) j = Some (content d s j)) ->
  exists d' s', doWrite d s false false fresh = Ok (d', s') /\ mdo s' = false /\ mN s' = mN s /\
    ml s' = 0 /\ mr s' = mN s + 1 /\ forall j, 0 <= j <= mN s + 1 -> mA s' j = content d s j.
Proof.
  intros d s fresh Hm Hc. unfold doWrite. rewrite Hm. cbn [Bool.eqb]. unfold readDir, slots.
  set (s1 := withlims s 0 (mN s + 1)).
  assert (G : forall js s2, mdir s2 = mdir s -> (forall j, In j js -> 0 <= j <= mN s + 1) ->
    exists s3, read_all d s2 js = Ok s3 /\ mN s3 = mN s2 /\ ml s3 = ml s2 /\ mr s3 = mr s2 /\ mdo s3 = mdo s2 /\
      forall j, mA s3 j = if existsb (Z.eqb j) js then content d s j else mA s2 j).
  { induction js as [|j js IH]; intros s2 Hd Hj; cbn [read_all].
    - exists s2. cbn. repeat split; auto.
    - rewrite Hd, Hc by (apply Hj; left; reflexivity).
      destruct (IH (withA s2 (setA (mA s2) j (content d s j)))) as (s3 & E & A1 & A2 & A3 & A4 & A5); [assumption| |].
      { intros k Hk. apply Hj. right. assumption. }
      rewrite E. exists s3. split; [reflexivity|]. split; [assumption|]. split; [assumption|]. split; [assumption|]. split; [assumption|].
      intros k. rewrite A5. cbn [existsb]. destruct (existsb (Z.eqb k) js); [now rewrite orb_true_r|]. rewrite orb_false_r.
      cbn. unfold setA. destruct (Z.eqb_spec k j) as [->|]; reflexivity. }
  destruct (G (map Z.of_nat (seq 0 (Z.to_nat (mN s + 2)))) s1 eq_refl) as (s3 & E & A1 & A2 & A3 & A4 & A5).
  { intros j Hj. apply in_map_iff in Hj. destruct Hj as (k & <- & Hk). apply in_seq in Hk. lia. }
  rewrite E. cbn [obind]. unfold cleanup. rewrite A4. unfold s1 at 1. cbn [withlims mdo]. rewrite Hm.
  eexists. eexists. split; [reflexivity|]. cbn [mdo mN ml mr mA]. split; [reflexivity|]. split; [assumption|].
  split; [assumption|]. split; [assumption|]. intros j Hj. rewrite A5.
  assert (X : existsb (Z.eqb j) (map Z.of_nat (seq 0 (Z.to_nat (mN s + 2)))) = true).
  { apply existsb_exists. exists j. split; [|apply Z.eqb_refl]. apply in_map_iff. exists (Z.to_nat j). split; [lia|].
    apply in_seq. lia. }
  now rewrite X.
Qed.
End C39.

(** *** Counterexamples; tensors are numbers. *)
Definition num_mps (n : Z) : mps Z :=
  mkMps n (fun j => if (1 <=? j) && (j <=? n) then Some (10 * j) else None) 0 (n + 1) 1 false 0%nat.
Definition no_files : disk Z := fun _ _ => None.
(** The state after doWrite(true) or doWrite(true,{"WriteAll",true}). *)
Definition on_disk (n : Z) (all : bool) : disk Z * mps Z := initWrite no_files (num_mps n) all 7%nat.

Example C39_nonvacuous :
  let w := mkWorld no_files (fun _ => num_mps 5) 0 in
  let os := [On 0%nat (Page true); On 0%nat (Get 4); On 0%nat (Put (-2) 99); Copy 0%nat 1%nat;
             On 0%nat (Get 1); On 1%nat (Change 4 (fun x => x + 1)); On 1%nat (Get 1); On 1%nat (Page false);
             On 1%nat (Get 4); On 0%nat (Get2 3 4); On 0%nat (Pos 2)] : list (wop Z Z) in
  let run := wrun (fun x y => Ok (x + 1, y - 1)) (fun x y => Ok (x - 1, y + 1)) (fun w => Ok (w, 0)) (fun w => Ok (0, w)) Z.add in
  starts 5 w /\ Forall (valid_wop 5) os /\ length (in_memory os) = 9%nat /\
  exists l, run w os = Ok l /\ map (fun o => fst (fst o)) l =
    [Some (Some 40); None; Some (Some 10); None; Some (Some 10); Some (Some 100);
     Some (Some 30); Some (Some 99); None].
Proof.
  split; [intros k; cbn; lia|]. split.
  { repeat (apply Forall_cons; [unfold valid_wop, valid_op, at_site; lia|]). constructor. }
  split; [reflexivity|]. eexists. split; [vm_compute; reflexivity|reflexivity].
Qed.

(** Two references that are not neighbours: the first is emptied by the second call. *)
Theorem C39_two_refs_refuted :
  exists (d : disk Z) s d' s', on_disk 5 true = (d, s) /\
    get2 d s 1 5 = Ok (d', s', (None, Some 50)) /\
    exists d0 s0, get2 no_files (num_mps 5) 1 5 = Ok (d0, s0, (Some 10, Some 50)).
Proof.
  eexists. eexists. eexists. eexists. split; [reflexivity|].
  split; [vm_compute; reflexivity|]. eexists. eexists. vm_compute. reflexivity.
Qed.

(** doWrite(true) then doWrite(false): tensors that were in memory have no file, and
    loading them throws. *)
Theorem C39_unload_missing_refuted :
  forall n, 1 <= n -> let '(d, s) := on_disk n false in doWrite d s false false 8%nat = Err.
Proof.
  intros n Hn. destruct (on_disk n false) as [d s] eqn:E. unfold on_disk, initWrite in E. cbn [num_mps mdo] in E. injection E as <- <-.
  unfold doWrite, readDir, slots. cbn [mdo Bool.eqb withlims mN].
  replace (Z.to_nat (n + 2)) with (S (S (S (Z.to_nat (n - 1))))) by lia. cbn [seq map].
  change (Z.of_nat 0) with 0. change (Z.of_nat 1) with 1. cbn [read_all withA mdir]. unfold inrange, num_mps. cbn [mN mA Nat.eqb andb].
  destruct (Z.leb_spec 0 0); [|lia]. destruct (Z.leb_spec 0 (n + 1)); [|lia]. destruct (Z.leb_spec 1 0); [lia|]. cbn [andb].
  destruct (Z.leb_spec 0 1); [|lia]. destruct (Z.leb_spec 1 (n + 1)); [|lia]. destruct (Z.leb_spec 1 1); [|lia]. destruct (Z.leb_spec 1 n); [|lia].
  reflexivity.
Qed.

(** With WriteAll: a tensor changed while in memory is lost by doWrite(false). *)
Theorem C39_unload_stale_refuted :
  exists d s d1 s1 d2 s2, on_disk 5 true = (d, s) /\
    modify d s 1 (fun _ => Some 99) = Ok (d1, s1) /\ mA s1 1 = Some 99 /\
    doWrite d1 s1 false false 8%nat = Ok (d2, s2) /\ mA s2 1 = Some 10.
Proof.
  eexists. eexists. eexists. eexists. eexists. eexists. split; [reflexivity|]. split; [reflexivity|]. split; [vm_compute; reflexivity|].
  split; [vm_compute; reflexivity|]. vm_compute; reflexivity.
Qed.

(** Storing a default constructed tensor does not replace the file: after moving
    away and back the old tensor is there again. *)
Theorem C39_null_refuted :
  exists d s d1 s1 d2 s2 d3 s3, on_disk 5 true = (d, s) /\
    modify d s 1 (fun _ => None) = Ok (d1, s1) /\ get d1 s1 5 = Ok (d2, s2, Some 50) /\
    get d2 s2 1 = Ok (d3, s3, Some 10).
Proof.
  eexists. eexists. eexists. eexists. eexists. eexists. eexists. eexists.
  split; [reflexivity|]. split; [vm_compute; reflexivity|]. split; vm_compute; reflexivity.
Qed.

(** dag() conjugates only the tensors that are in memory at the time. *)
Theorem C39_dag_refuted :
  exists d s d2 s2, on_disk 5 true = (d, s) /\
    mA (dag_all Z.opp s) 1 = Some (-10) /\ get d (dag_all Z.opp s) 5 = Ok (d2, s2, Some 50) /\
    mA (dag_all Z.opp (num_mps 5)) 5 = Some (-50).
Proof.
  eexists. eexists. eexists. eexists. split; [reflexivity|]. split; [vm_compute; reflexivity|]. split; vm_compute; reflexivity.
Qed.

(** The boundary tensors A_[0], A_[N+1] (used by infinite MPS) are paged out by
    WriteAll, and operator() never loads them. *)
Theorem C39_boundary_refuted :
  exists s0 : mps Z, mdo s0 = false /\ mA s0 0 = Some 7 /\
    (exists d0' s0', get no_files s0 0 = Ok (d0', s0', Some 7)) /\
    let '(d, s) := initWrite no_files s0 true 7%nat in
    exists d' s', get d s 0 = Ok (d', s', None).
Proof.
  exists (mkMps 3 (fun j => if j =? 0 then Some 7 else if (1 <=? j) && (j <=? 3) then Some (10 * j) else None) 0 4 1 false 0%nat).
  split; [reflexivity|]. split; [reflexivity|]. split; [eexists; eexists; reflexivity|].
  eexists. eexists. reflexivity.
Qed.

Print Assumptions C38_history.
Print Assumptions C38_position.
Print Assumptions C38_position_svd.
Print Assumptions C38_norm.
Print Assumptions C38_total.
Print Assumptions C38_unlinked_refuted.
Print Assumptions C38_slot0_refuted.
Print Assumptions C39_transparent.
Print Assumptions C39_memory.
Print Assumptions C39_unload_partial.
Print Assumptions C39_two_refs_refuted.
Print Assumptions C39_unload_missing_refuted.
Print Assumptions C39_unload_stale_refuted.
Print Assumptions C39_null_refuted.
Print Assumptions C39_dag_refuted.
Print Assumptions C39_boundary_refuted.
