(** C30: writing to a stream and reading back. *)
From Coq Require Import List ZArith Bool Lia Arith.
From Coq Require Import Init.Byte Strings.Byte.
From Verif Require Import Util SmallStringModel TagSetModel TagSetSpec TagSetProofs TagSetProps QnModel IndexModel SerialModel SerialSpec SerialProofs.
Import ListNotations.

(** ** Plain data, strings and vectors: into any object. *)
Theorem C30_int : forall old z, int_ok z -> reads_back read_int old (write_int z) z.
Proof. exact rb_int. Qed.
Theorem C30_long : forall old z, long_ok z -> reads_back read_long old (write_long z) z.
Proof. exact rb_long. Qed.
Theorem C30_string : forall old x, len_ok x -> reads_back read_string old (write_string x) x.
Proof. exact rb_string. Qed.
(** A vector of anything that reads back reads back, whatever the vector held before. *)
Theorem C30_vector : forall (T : Type) (d : T) (rd : reader T) (wr : T -> bytes) (ok : T -> Prop),
  (forall o x, ok x -> reads_back rd o (wr x) x) ->
  forall old xs, vec_ok ok xs ->
    reads_back (read_vec d rd) old (write_vec wr xs) xs /\ reads_back (read_ia d rd) old (write_ia wr xs) xs.
Proof. intros T d rd wr ok H old xs Hx. split; [apply (rb_vec' d rd wr ok)|apply (rb_ia' d rd wr ok)]; auto. Qed.

(** ** Args and Sweeps: into any object. *)
Theorem C30_args : forall old a rest, vec_ok val_ok a ->
  exists a', read_args old (Some (write_args a ++ rest)) = Ok (a', Some rest) /\ Forall2 same_val a a'.
Proof.
  intros old a rest [Hl Ha]. unfold read_args, read_ia, write_args, write_ia, write_vec. rewrite <- app_assoc.
  rewrite rb_size by (split; [lia|exact Hl]). cbn [obind]. rewrite Nat2Z.id.
  apply rb_vals; auto using resize_length.
Qed.
Theorem C30_sweeps : forall old w, sweeps_ok w -> reads_back read_sweeps old (write_sweeps w) w.
Proof.
  intros old w (H1 & H2 & H3 & H4 & H5 & H6) rest. unfold read_sweeps, write_sweeps. rewrite <- !app_assoc.
  assert (RI : forall (o : list Z) xs r, vec_ok int_ok xs -> read_vec 0%Z read_int o (Some (write_vec write_int xs ++ r)) = Ok (xs, Some r)).
  { intros o xs r Hx. apply (rb_vec' 0%Z read_int write_int int_ok rb_int); auto. }
  assert (RR : forall (o : list real) xs r, vec_ok real_ok xs -> read_vec real0 read_real o (Some (write_vec write_real xs ++ r)) = Ok (xs, Some r)).
  { intros o xs r Hx. apply (rb_vec' real0 read_real write_real real_ok rb_real); auto. }
  rewrite RI by auto. cbn [obind]. rewrite RI by auto. cbn [obind]. rewrite RR by auto. cbn [obind].
  rewrite RI by auto. cbn [obind]. rewrite RR by auto. cbn [obind]. rewrite rb_int by auto. now destruct w.
Qed.

(** ** Quantum numbers, tags and indices *)
Theorem C30_qn : forall old q, length old = 4 -> qn_ok q -> reads_back read_qn old (write_qn q) q.
Proof. exact rb_qn. Qed.
Lemma no_tags_size ts : no_tags ts -> clean ts /\ ts_size ts = 0.
Proof.
  intros [Hc Hn]. split; [now apply api_clean_clean|].
  unfold ts_list in Hn. destruct (ts_size ts); auto. exfalso. apply (Hn (ts_at ts 0)). cbn. auto.
Qed.
Theorem C30_tags : forall old T, no_tags old -> tags_ok T -> reads_back read_tags old (write_tags T) T.
Proof. intros old T Ho [Hc Hp]. apply no_tags_size in Ho as [H1 H2]. apply rb_tags; auto using api_clean_clean. Qed.
(** An Index reads back into a new Index, and into any other one that has no tags, unless the other
    has quantum numbers and the one in the file has not. *)
Theorem C30_index : forall J, index_ok J -> exists w, write_index J = Ok w /\
  reads_back read_index ix_default w J /\
  forall old, no_tags (ix_tags old) -> (ix_qns J <> [] \/ ix_qns old = []) -> reads_back read_index old w J.
Proof.
  intros J HJ. destruct (write_index_total J HJ) as (w & E). exists w. split; auto. split.
  - apply rb_index_new; auto.
  - intros old Ho Hq. apply no_tags_size in Ho. apply rb_index; auto.
Qed.
(** A default Index is refused. *)
Theorem C30_index_default : forall J, ix_id J = 0%N -> write_index J = Err.
Proof. intros J H. unfold write_index, ix_bool. rewrite H. reflexivity. Qed.
Theorem C30_indexset : forall is, vec_ok indstr_ok is -> exists w, write_inds is = Ok w /\ reads_back read_inds [] w is.
Proof. intros is H. destruct (write_inds_total is H) as (w & E). exists w. split; auto. apply rb_inds; auto. Qed.
Theorem C30_sites : forall l old, l <> [] -> (Z.of_nat (length l) < 2 ^ 31)%Z -> Forall index_ok l ->
  exists w, write_sites l = Ok w /\ reads_back read_sites old w l.
Proof.
  intros l old Hne Hlen Hl. unfold write_sites.
  destruct (write_all_total write_index index_ok write_index_total l Hl) as (w & E). rewrite E. cbn [obind].
  eexists. split; [reflexivity|]. intros rest. unfold read_sites. rewrite <- app_assoc, rb_int by (unfold int_ok; lia).
  cbn [obind]. destruct (Z.ltb_spec 0 (Z.of_nat (length l))) as [_|H].
  - rewrite Nat2Z.id. apply write_all_ok in E as (ws & -> & Hf). apply rb_each. eapply all3_fresh; eauto.
    intros x w' Hx Hw'. apply rb_index_new; auto.
  - destruct l; [congruence|]. cbn [length] in H. lia.
Qed.

(** ** Tensors and matrix product states *)
(** Every storage type, into a tensor that held any other one. *)
Theorem C30_storage : forall old x rest, store_ok x -> (x <> Null \/ old = Null) ->
  read_store (type_code x) old (Some (write_store x ++ rest)) = Ok (x, Some rest).
Proof. intros. apply rb_store; auto. Qed.
Theorem C30_itensor : forall T, it_ok T -> exists w, write_it T = Ok w /\ reads_back read_it it_default w T.
Proof. intros T H. destruct (write_it_total T H) as (w & E). exists w. split; auto. apply rb_it; auto. Qed.
Theorem C30_mps : forall M, mps_ok M -> exists w, write_mps M = Ok w /\
  forall n, reads_back read_mps (mps_new n) w M.
Proof.
  intros M H. destruct (write_mps_total M H) as (w & E). exists w. split; auto. intros n.
  apply rb_mps; auto. right. unfold mps_new. cbn [m_a]. now rewrite repeat_length.
Qed.

(** ** Files *)
(** What was written last to a file is what readFromFile returns. *)
Theorem C30_file : forall (T : Type) (rd : reader T) old w x, reads_back rd old w x -> readFromFile rd old w = Ok x.
Proof. intros T rd old w x H. unfold readFromFile. specialize (H []). rewrite app_nil_r in H. unfold bytes in *. now rewrite H. Qed.
(** Two values written one after the other are read one after the other. *)
Theorem C30_sequence : forall (A B : Type) (ra : reader A) (rb : reader B) oa ob wa wb a b rest,
  reads_back ra oa wa a -> reads_back rb ob wb b ->
  exists s, ra oa (Some ((wa ++ wb) ++ rest)) = Ok (a, s) /\ rb ob s = Ok (b, Some rest).
Proof. intros A B ra rb oa ob wa wb a b rest Ha Hb. exists (Some (wb ++ rest)). rewrite <- app_assoc. split; [apply Ha|apply Hb]. Qed.
(** Two different values never have the same bytes, nor one a beginning of the other's. *)
Theorem C30_injective : forall (T : Type) (rd : reader T) old wa wb a b r,
  reads_back rd old wa a -> reads_back rd old wb b -> wa ++ r = wb -> a = b /\ r = [].
Proof.
  intros T rd old wa wb a b r Ha Hb E. specialize (Ha r). specialize (Hb []). rewrite app_nil_r, <- E, Ha in Hb.
  injection Hb as H1 H2. auto.
Qed.

(** ** Where it goes wrong *)
Definition ixa (id : N) (ts : TagSet) (q : list (QN * Z)) : index := Ix id 2 ArrOut q ts.
Definition tsA := ts_setPrime (get (run_ops [OAddTag tA] ts_new)) 0.
Definition tsB := ts_setPrime (get (run_ops [OAddTag tB] ts_new)) 0.
Definition q1 : QN := [mkQNum (ss_make [x4e]) 1 1; qnum0; qnum0; qnum0].
Definition wbytes (o : outcome bytes) : bytes := match o with Ok b => b | _ => [] end.

Lemma ixa_ok id t : (0 < id < 1000)%N -> ss_toInt t = None -> ss_eqb t ss_empty = false -> index_ok (ixa id (ts_setPrime (get (run_ops [OAddTag t] ts_new)) 0) []).
Proof.
  intros Hid Hi He. unfold index_ok, ixa; cbn [ix_id ix_dim ix_tags ix_qns]. split; [lia|]. split; [unfold size_ok; lia|].
  split; [unfold int_ok; lia|]. split; [|split; [unfold len_ok; cbn; lia|constructor]].
  split; [|unfold int_ok; cbn; lia].
  eapply ac_op with (o := OSetPrime 0); [|constructor|exact I|discriminate|reflexivity].
  eapply ac_op with (o := OAddTag t); [apply ac_new|constructor|exact I|discriminate|].
  unfold run_ops, run_op, addTag. rewrite Hi. unfold ts_new at 1 2. cbn [ts_size ts_tags ts_plev]. cbn [Nat.eqb MAX_TAGS].
  rewrite He. reflexivity.
Qed.
(** Reading an Index into one that has a tag keeps that tag. *)
Theorem C30_index_reuse_refuted : exists J old J' rest, index_ok J /\ index_ok old /\
  read_index old (Some (wbytes (write_index J))) = Ok (J', rest) /\ In tA (ts_list (ix_tags J')) /\ ~ In tA (ts_list (ix_tags J)).
Proof.
  exists (ixa 5 tsB []), (ixa 6 tsA []). eexists _, _.
  split; [|split; [|split; [vm_compute; reflexivity|]]].
  - apply ixa_ok; [lia|reflexivity|reflexivity].
  - apply ixa_ok; [lia|reflexivity|reflexivity].
  - split; [vm_compute; auto|]. vm_compute. intros [H|H]; [discriminate|auto].
Qed.
(** Reading an Index without quantum numbers into one that has them keeps them. *)
Theorem C30_index_blocks_refuted : exists J old J' rest, ix_qns J = [] /\
  read_index old (Some (wbytes (write_index J))) = Ok (J', rest) /\ ix_qns J' = ix_qns old /\ ix_qns old <> [].
Proof.
  exists (ixa 5 tsA []), (ixa 6 (ts_setPrime ts_new 0) [(q1, 2%Z)]). eexists _, _.
  split; [reflexivity|]. split; [vm_compute; reflexivity|]. split; [reflexivity|discriminate].
Qed.
(** Reading a tensor without storage into one with storage keeps that storage. *)
Theorem C30_itensor_null_refuted : forall old, exists T' w rest, write_it it_default = Ok w /\
  read_it (IT [] old) (Some w) = Ok (T', rest) /\ it_store T' = old /\ it_inds T' = [].
Proof. intros old. eexists _, _, _. split; [reflexivity|]. split; [vm_compute; reflexivity|]. split; reflexivity. Qed.
(** Reading a tensor into one with indices merges the tags of the indices. *)
Theorem C30_itensor_reuse_refuted : exists T old T' rest,
  read_it old (Some (wbytes (write_it T))) = Ok (T', rest) /\
  map (fun x => ts_list (ix_tags (fst x))) (it_inds T) = [[tB]] /\
  map (fun x => ts_list (ix_tags (fst x))) (it_inds T') = [[tA; tB]].
Proof.
  exists (IT [(ixa 5 tsB [], 1%Z)] (DenseR [real0; real0])), (IT [(ixa 6 tsA [], 1%Z)] (DenseR [real0; real0])).
  eexists _, _. split; [vm_compute; reflexivity|]. split; reflexivity.
Qed.
(** The norm an MPO remembers is not written: the one read has that of the object read into. *)
Theorem C30_mpo_refuted : forall H w, mps_ok (o_mps H) -> write_mpo H = Ok w -> forall n r rest,
  exists H', read_mpo (Mpo (mps_new n) r) (Some (w ++ rest)) = Ok (H', Some rest) /\ o_mps H' = o_mps H /\ o_logref H' = r.
Proof.
  intros H w HM Hw n r rest. destruct (C30_mps _ HM) as (w' & Ew & Hr). unfold write_mpo in Hw.
  rewrite Ew in Hw. injection Hw as <-. unfold read_mpo. cbn [o_mps o_logref]. rewrite Hr. eexists. split; [reflexivity|auto].
Qed.
(** A file that ends too early is accepted, with another value. *)
Theorem C30_truncated_refuted : exists (x y : list Z) k, vec_ok int_ok x /\ (k < length (write_vec write_int x))%nat /\
  readFromFile (read_vec 0%Z read_int) [] (firstn k (write_vec write_int x)) = Ok y /\ x <> y.
Proof.
  exists [1; 2]%Z, [1; 0]%Z, 12. split; [|split; [vm_compute; lia|split; [vm_compute; reflexivity|discriminate]]].
  split; [vm_compute; reflexivity|]. repeat constructor; unfold int_ok; lia.
Qed.
(** A quantum number that is legal (it is QNum("N",-1,65536)) cannot be read back. *)
Theorem C30_qnum_mod_refuted : forall old, qset32 65536 (-1) = Some 65535%Z /\
  read_qnum old (Some (write_qnum (mkQNum (ss_make [x4e]) 65535 65536))) = UB.
Proof. intros old. split; vm_compute; reflexivity. Qed.
(** A SiteSet without sites read into one with sites leaves it. *)
Theorem C30_sites_empty_refuted : forall old, exists w, write_sites [] = Ok w /\ read_sites old (Some w) = Ok (old, Some []).
Proof. intros old. eexists. split; [reflexivity|]. vm_compute. reflexivity. Qed.

(** ** Non-vacuity *)
Definition ex_ix (id : N) : index := Ix id 3 ArrIn [(q1, 1%Z); (qn0, 2%Z)] tsA.
Lemma ex_ix_ok id : (0 < id < 1000)%N -> index_ok (ex_ix id).
Proof.
  intros Hid. unfold index_ok, ex_ix; cbn [ix_id ix_dim ix_tags ix_qns]. split; [lia|]. split; [unfold size_ok; lia|].
  split; [unfold int_ok; lia|]. split.
  - split; [|vm_compute; split; [intros H; discriminate H|reflexivity]].
    eapply ac_op with (o := OSetPrime 0); [|constructor|exact I|discriminate|reflexivity].
    eapply ac_op with (o := OAddTag tA); [apply ac_new|constructor|exact I|discriminate|reflexivity].
  - assert (H1 : forall v, (v = 0 \/ v = 1)%Z -> qnum_ok (mkQNum (ss_make [x4e]) v v)).
    { intros v Hv. split; [unfold int_ok; cbn; lia|]. split; cbn; lia. }
    assert (H0 : qnum_ok qnum0). { split; [unfold int_ok; cbn; lia|]. split; cbn; lia. }
    split; [vm_compute; reflexivity|]. repeat apply Forall_cons; try apply Forall_nil; cbn [fst snd].
    + split; [split; [reflexivity|]|unfold long_ok; lia]. repeat apply Forall_cons; auto.
    + split; [split; [reflexivity|]|unfold long_ok; lia]. repeat apply Forall_cons; auto.
Qed.
Definition ex_real : real := [x01; x02; x03; x04; x05; x06; x07; x08].
Definition ex_it : itensor := IT [(ex_ix 7, 1%Z); (ex_ix 9, 3%Z)]
  (QDenseC [([0; 1], 0); ([1; 0], 2)]%Z [(ex_real, real0); (real0, ex_real); cplx0; cplx0]).
Lemma ex_it_ok : it_ok ex_it.
Proof.
  split.
  - split; [vm_compute; reflexivity|]. repeat (constructor; [split; [apply ex_ix_ok; lia|vm_compute; split; [intros H; discriminate H|reflexivity]]|]). constructor.
  - split; (split; [vm_compute; reflexivity|]); repeat apply Forall_cons; try apply Forall_nil; try (split; reflexivity).
    all: split; [split; [vm_compute; reflexivity|repeat apply Forall_cons; try apply Forall_nil; unfold long_ok; lia]|unfold long_ok; cbn [snd]; lia].
Qed.
Definition ex_mps : mps := Mps 1 [it_default; ex_it; it_default] 0 2.
Lemma ex_mps_ok : mps_ok ex_mps.
Proof.
  split; [cbn; lia|]. split; [unfold int_ok; cbn; lia|]. split; [reflexivity|]. split; [|unfold int_ok; cbn; lia].
  assert (HD : it_ok it_default) by (split; [split; [vm_compute; reflexivity|constructor]|exact I]).
  apply Forall_cons; [exact HD|]. apply Forall_cons; [apply ex_it_ok|]. apply Forall_cons; [exact HD|constructor].
Qed.
Example C30_nonvacuous :
  mps_ok ex_mps /\ readFromFile read_mps (mps_new 0) (wbytes (write_mps ex_mps)) = Ok ex_mps /\
  length (wbytes (write_mps ex_mps)) = 628 /\
  (exists a, vec_ok val_ok a /\ length a = 2 /\ readFromFile read_args [] (write_args a) = Ok a).
Proof.
  split; [apply ex_mps_ok|]. split; [vm_compute; reflexivity|]. split; [vm_compute; reflexivity|].
  exists [Wv [x41] VString [x42; x43] nan; Wv [x44] VNumeric [] ex_real]. split; [|split; [reflexivity|vm_compute; reflexivity]].
  split; [vm_compute; reflexivity|]. repeat constructor; vm_compute; reflexivity.
Qed.

Print Assumptions C30_int.
Print Assumptions C30_long.
Print Assumptions C30_string.
Print Assumptions C30_vector.
Print Assumptions C30_args.
Print Assumptions C30_sweeps.
Print Assumptions C30_qn.
Print Assumptions C30_tags.
Print Assumptions C30_index.
Print Assumptions C30_index_default.
Print Assumptions C30_indexset.
Print Assumptions C30_sites.
Print Assumptions C30_storage.
Print Assumptions C30_itensor.
Print Assumptions C30_mps.
Print Assumptions C30_file.
Print Assumptions C30_sequence.
Print Assumptions C30_injective.
Print Assumptions C30_index_reuse_refuted.
Print Assumptions C30_index_blocks_refuted.
Print Assumptions C30_itensor_null_refuted.
Print Assumptions C30_itensor_reuse_refuted.
Print Assumptions C30_mpo_refuted.
Print Assumptions C30_truncated_refuted.
Print Assumptions C30_qnum_mod_refuted.
Print Assumptions C30_sites_empty_refuted.
