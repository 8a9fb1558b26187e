(** Which blocks a tensor of given flux has. *)
From Coq Require Import List ZArith Lia Bool Arith Permutation Sorted.
From Verif Require Import Util RangeModel RangeSpec RangeProofs TensorModel TensorSpec TensorProofs SemProofs
  ContractModel DenseModel SmallStringModel QnModel QnSpec QnProofs QdModel QdSpec QdProofs ProductProps.
Import ListNotations.
Open Scope outcome_scope.

(** The charge [n] carried by block b: the sum over the indices of (+1 for Out, -1 for In) times
    the block's charge. *)
Section FluxSpec.
Context {I : Type} (qns : I -> list QN) (dir : I -> Arrow).
Fixpoint flux_val (is : list I) (b : list nat) (n : SmallString) : Z :=
  match is, b with
  | x :: is', i :: b' => (arrow_int (dir x) * qn_val_of (nth i (qns x) qn0) n + flux_val is' b' n)%Z
  | _, _ => 0%Z
  end.
(** Block b has flux q. *)
Definition has_flux (M : SmallString -> Z) (is : list I) (b : list nat) (q : QN) : Prop :=
  forall n, residue (M n) (flux_val is b n) = qn_val_of q n.
End FluxSpec.

Section Flux.
Context {R : Type} (r0 : R) {I : Type} (bs : I -> list nat) (qns : I -> list QN) (dir : I -> Arrow).
Context (M : SmallString -> Z) (S : list SmallString).
Hypothesis Sch : Scheme M S.
Notation nblocks := (nblocks bs).
Notation sz := (sz bs).
Notation filled := (filled bs).
Notation stored := (stored bs).
Notation isval := (isval M S).
Notation flux_val := (flux_val qns dir).
Notation has_flux := (has_flux qns dir M).

(** Every block of every index has a quantum number. *)
Definition labelled (is : list I) : Prop :=
  forall x, In x is -> length (qns x) = length (bs x) /\ Forall (Charges M S) (qns x).

Lemma block_qn_val : forall is b, labelled is -> valid (map nblocks is) b -> forall q f, isval q f ->
  exists q', block_qn qns dir q is b = Ok q' /\ isval q' (fun n => (f n + flux_val is b n)%Z).
Proof.
  induction is as [|x is IH]; intros b HL V q f Hq; inversion V as [|? i ? b' Hi V']; subst; cbn [block_qn QdFlux.flux_val].
  - exists q. split; auto. eapply isval_ext; [exact Hq|]. intros; ring.
  - destruct (HL x (or_introl eq_refl)) as [L C]. unfold QdSpec.nblocks in Hi. rewrite (oget_ok qn0) by lia. cbn [obind].
    rewrite Forall_forall in C. assert (Cq : Charges M S (nth i (qns x) qn0)) by (apply C, nth_In; lia).
    destruct (IH b' ltac:(intros y Hy; apply HL; right; exact Hy) V' _ _ (isval_add M S Sch _ _ _ _ Hq (isval_mul M S Sch _ _ (dir x) (isval_self M S Sch _ Cq)))) as (q' & E & H).
    exists q'. split; [exact E|]. eapply isval_ext; [exact H|]. intros n. cbn. ring.
Qed.
Lemma block_qn_flux is b div : labelled is -> valid (map nblocks is) b -> Charges M S div ->
  exists q', block_qn qns dir qn0 is b = Ok q' /\ Charges M S q' /\ has_flux is b q' /\ (qn_eqb q' div = true <-> has_flux is b div).
Proof.
  intros HL V C. destruct (block_qn_val is b HL V qn0 _ (isval0 M S)) as (q' & E & H). exists q'. split; [exact E|].
  pose proof H as [C' K]. split; [exact C'|]. split; [intros n; rewrite K; f_equal; ring|].
  rewrite (qn_eqb_iff M S) by auto. unfold QdFlux.has_flux. split; intros G n; specialize (G n).
  - rewrite <- G, K. f_equal; ring.
  - rewrite <- G, K. f_equal; ring.
Qed.

Definition blocks_of (its : list (list nat * nat)) := map fst its.
Lemma offsets_loop_spec is div : labelled is -> Charges M S div -> forall its t,
  Forall (fun x => valid (map nblocks is) (fst x)) its ->
  exists l n, offsets_loop bs qns dir is div its t = Ok (l, n) /\ filled is t l n /\
    (forall b, In b (map fst l) <-> In b (map fst its) /\ has_flux is b div) /\
    (forall P : list nat -> list nat -> Prop, StronglySorted P (map fst its) -> StronglySorted P (map fst l)).
Proof.
  intros HL C. induction its as [|[b o] its IH]; intros t HV; cbn [offsets_loop].
  - exists [], t. split; [reflexivity|]. split; [reflexivity|]. split; [cbn; tauto|intros; exact H].
  - inversion HV; subst. cbn [fst] in *. destruct (block_qn_flux is b div HL H1 C) as (q & E & _ & _ & HQ). rewrite E. cbn [obind].
    destruct (qn_eqb q div) eqn:EQ.
    + rewrite bsize_spec by auto. cbn [obind]. destruct (IH (t + sz is b) H2) as (l & n & E2 & F & G & SS). rewrite E2. cbn [obind].
      exists ((b, t) :: l), n. split; [reflexivity|]. split; [cbn; auto|]. split.
      * intros c. cbn [map fst In]. rewrite G. split; [intros [<-|[K1 K2]]; [split; [left|apply HQ]; auto|split; [right|]; auto]|].
        intros [[<-|K1] K2]; [left; auto|right; auto].
      * intros P HS. cbn [map fst] in *. apply StronglySorted_inv in HS as [HS HF]. constructor; auto. rewrite Forall_forall in *. intros c Hc. apply HF. apply G in Hc. tauto.
    + destruct (IH t H2) as (l & n & E2 & F & G & SS). exists l, n. split; [exact E2|]. split; [exact F|]. split.
      * intros c. rewrite G. cbn [map fst In]. split; [tauto|]. intros [[<-|K1] K2]; [exfalso; apply HQ in K2; congruence|auto].
      * intros P HS. cbn [map fst] in HS. apply StronglySorted_inv in HS as [HS HF]. auto.
Qed.

Lemma sorted_of_map {A B} (f : A -> B) (P : B -> B -> Prop) l : StronglySorted P (map f l) -> StronglySorted (fun a b => P (f a) (f b)) l.
Proof.
  induction l as [|x l IH]; intros H; constructor; cbn [map] in H; apply StronglySorted_inv in H as [HS HF]; auto.
  rewrite Forall_forall in *. intros y Hy. apply HF. apply in_map. exact Hy.
Qed.
Lemma sorted_seq : forall n k, StronglySorted lt (seq k n).
Proof.
  induction n as [|n IH]; intros k; cbn [seq]; constructor; auto. apply Forall_forall. intros y Hy. apply in_seq in Hy. lia.
Qed.

Lemma loop_blocks is : is <> [] -> (forall x, In x is -> bs x <> []) ->
  let rg := range_init (map (fun x => length (bs x)) is) in
  exists its, riter_loop (Datatypes.S (dim rg)) 0 rg (riter_begin 0 rg) = Ok (Some its) /\
    (forall b, In b (map fst its) <-> valid (map nblocks is) b) /\
    StronglySorted (fun a b => colmajor (map nblocks is) a < colmajor (map nblocks is) b) (map fst its).
Proof.
  intros Hn Hp rg. set (e := map nblocks is).
  assert (EX : map ext rg = e) by (unfold rg, range_init, e; apply map_ext_range_init).
  assert (Hpos : forall d, In d e -> 0 < d).
  { intros d Hd. apply in_map_iff in Hd as (x & <- & Hx). specialize (Hp x Hx). unfold QdSpec.nblocks. destruct (bs x); [congruence|cbn; lia]. }
  assert (Hr : rg <> []).
  { intros Q. apply (f_equal (map ext)) in Q. rewrite EX in Q. destruct is; [congruence|discriminate]. }
  pose proof (size_pos e Hpos) as HS.
  pose proof (riter_loop_spec 0 rg Hr (size e) 0) as E. cbv zeta in E. rewrite EX in E. specialize (E ltac:(lia) HS).
  rewrite decode_zero in E by auto. rewrite dot_repeat0, shift_repeat0 in E.
  assert (LE : length e = length rg) by (rewrite <- EX, map_length; reflexivity). rewrite LE in E.
  rewrite dim_size, EX. eexists. split; [exact E|].
  assert (HM : map fst (map (fun j => (shift 0 (decode e j), dot rg (decode e j))) (seq 0 (size e))) = map (decode e) (seq 0 (size e))).
  { rewrite map_map. apply map_ext. intros j. cbn [fst]. unfold shift. rewrite <- map_id. apply map_ext. intros; lia. }
  rewrite HM. split.
  - intros b. split; intros H.
    + apply in_map_iff in H as (k & <- & Hk). apply in_seq in Hk. apply decode_valid. lia.
    + apply in_map_iff. exists (enc e b). split; [apply decode_enc; auto|]. apply in_seq. pose proof (enc_lt e b H). lia.
  - assert (G : forall l, StronglySorted lt l -> (forall k, In k l -> k < size e) ->
       StronglySorted (fun a b => colmajor e a < colmajor e b) (map (decode e) l)).
    { induction 1 as [|k l HS' IH HF]; intros HB; cbn [map]; constructor; [apply IH; intros; apply HB; right; auto|].
      rewrite Forall_forall in *. intros y Hy. apply in_map_iff in Hy as (j & <- & Hj).
      rewrite !colmajor_enc, !enc_decode by (apply HB; cbn; auto). apply HF. exact Hj. }
    apply G; [apply sorted_seq|]. intros k Hk. apply in_seq in Hk. lia.
Qed.

Theorem qmake_spec is div : labelled is -> (forall x, In x is -> bs x <> []) -> Charges M S div -> is <> [] ->
  exists d, qmake r0 bs qns dir is div = Ok (Some d) /\ stored is d /\
    (forall b, In b (map fst (offs d)) <-> valid (map nblocks is) b /\ has_flux is b div) /\
    store d = repeat r0 (length (store d)).
Proof.
  intros HL Hp C Hn. unfold qmake, getBlockOffsets.
  destruct (loop_blocks is Hn Hp) as (its & E & HB & HS). cbv zeta in E.
  destruct is as [|x is]; [congruence|]. remember (x :: is) as is'. rewrite E. cbn [obind].
  destruct (offsets_loop_spec is' div HL C its 0) as (l & n & E2 & F & G & SS).
  { apply Forall_forall. intros y Hy. apply HB. apply in_map. exact Hy. }
  rewrite E2. cbn [obind option_map fst snd]. eexists. split; [reflexivity|]. split; [|split].
  - split; cbn [offs store].
    + rewrite repeat_length. exact F.
    + apply SS in HS. apply sorted_of_map in HS. exact HS.
  - intros b. cbn [offs]. rewrite G, HB. tauto.
  - cbn [store]. rewrite repeat_length. reflexivity.
Qed.
End Flux.
