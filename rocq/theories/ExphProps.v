(** C65: the approximate exponential toExpH of an AutoMPO. *)
From Coq Require Import List Arith Bool String Lia ZArith Permutation Ring.
From Verif Require Import Util AutoMpoModel AutoMpoSpec AutoMpoProofs AutoMpoChain AutoMpoProps ExphSpec ExphModel ExphProofs.
Import ListNotations.

(** C65.  Every matrix element of the MPO is the sum, over all sets of terms no two of which overlap, of
    (-tau)^(number of terms) times the coefficients times the product of the placed operators:
    the identity from the empty set, -tau H from the sets of one term, and so on.
    srt n is any reordering of the basis of link n. *)
Theorem C65_expansion : forall (R : Type) (r0 r1 : R) radd rmul rsub ropp, ring_theory r0 r1 radd rmul rsub ropp eq ->
  forall (val : nat -> string -> R) (tau : R) N (terms : list (@hterm R)) (srt : nat -> list sterm -> list sterm),
  1 <= N -> (forall h, In h terms -> one_or_two_sites N h) -> (forall n l, Permutation (srt n l) l) ->
  toExpH r0 radd rmul ropp "ZW1" srt tau val N terms = Ok (cluster_sum r0 r1 radd rmul 0 (ropp tau) val N terms).
Proof.
  intros R r0 r1 radd rmul rsub ropp RT val tau N terms srt HN WF SP. unfold toExpH. cbn [String.eqb Ascii.eqb Bool.eqb].
  exact (toExpH_clusters r0 r1 radd rmul rsub ropp RT N terms val tau WF srt SP HN).
Qed.

(** C65.  To first order in tau the MPO is 1 - tau H, with H what toMPO makes of the same terms; what is left
    is tau^2 times the sum over the sets of two or more terms that do not overlap. *)
Theorem C65_first_order : forall (R : Type) (r0 r1 : R) radd rmul rsub ropp, ring_theory r0 r1 radd rmul rsub ropp eq ->
  forall (val : nat -> string -> R) (tau : R) N (terms : list (@hterm R)) (srt : nat -> list sterm -> list sterm) e h,
  1 <= N -> (forall h, In h terms -> one_or_two_sites N h) -> (forall n l, Permutation (srt n l) l) ->
  toExpH r0 radd rmul ropp "ZW1" srt tau val N terms = Ok e ->
  toMPO_elt r0 radd rmul (fun _ l => l) val N terms = Ok h ->
  e = radd (rsub (identity_value r1 rmul val N) (rmul tau h))
           (rmul (rmul tau tau) (cluster_sum r0 r1 radd rmul 2 (ropp tau) val N terms)).
Proof.
  intros R r0 r1 radd rmul rsub ropp RT val tau N terms srt e h HN WF SP He Hh.
  rewrite (C65_expansion R r0 r1 radd rmul rsub ropp RT val tau N terms srt HN WF SP) in He.
  rewrite (C36_exact R r0 r1 radd rmul rsub ropp RT val N terms HN WF) in Hh.
  injection He as <-. injection Hh as <-.
  rewrite (clusters_orders r0 r1 radd rmul rsub ropp RT N terms val WF HN (ropp tau)).
  apply (order_ring r0 r1 radd rmul rsub ropp RT).
Qed.

(** C65.  For no time the MPO is the identity. *)
Theorem C65_no_time : forall (R : Type) (r0 r1 : R) radd rmul rsub ropp, ring_theory r0 r1 radd rmul rsub ropp eq ->
  forall (val : nat -> string -> R) N (terms : list (@hterm R)) (srt : nat -> list sterm -> list sterm),
  1 <= N -> (forall h, In h terms -> one_or_two_sites N h) -> (forall n l, Permutation (srt n l) l) ->
  toExpH r0 radd rmul ropp "ZW1" srt r0 val N terms = Ok (identity_value r1 rmul val N).
Proof.
  intros R r0 r1 radd rmul rsub ropp RT val N terms srt HN WF SP.
  rewrite (C65_expansion R r0 r1 radd rmul rsub ropp RT val r0 N terms srt HN WF SP). f_equal.
  rewrite (clusters_orders r0 r1 radd rmul rsub ropp RT N terms val WF HN (ropp r0)).
  apply (order_ring0 r0 r1 radd rmul rsub ropp RT).
Qed.

(** C65.  It throws for any other "Approx", for a term of three or more operators and for a site after
    the last one. *)
Theorem C65_refuses : forall (R : Type) (r0 : R) radd rmul ropp (val : nat -> string -> R) (tau : R) N terms srt approx,
  approx <> "ZW1"%string \/ (exists h, In h terms /\ 2 < List.length (ht_ops h)) \/
  (exists h s, In h terms /\ In s (ht_ops h) /\ N < st_i s) ->
  toExpH r0 radd rmul ropp approx srt tau val N terms = Err.
Proof.
  intros R r0 radd rmul ropp val tau N terms srt approx H. unfold toExpH.
  destruct (String.eqb_spec approx "ZW1") as [->|E]; [|reflexivity]. unfold toExpH_ZW1.
  destruct (existsb (fun h => Nat.ltb 2 (List.length (ht_ops h))) terms) eqn:E1; [reflexivity|].
  destruct (existsb (fun h => existsb (fun s => Nat.ltb N (st_i s)) (ht_ops h)) terms) eqn:E2; [reflexivity|].
  exfalso. destruct H as [H|[[h [Hh L]]|[h [s [Hh [Hs L]]]]]]; [congruence| |].
  - rewrite <- not_true_iff_false in E1. apply E1. apply existsb_exists. exists h. split; [exact Hh|now apply Nat.ltb_lt].
  - rewrite <- not_true_iff_false in E2. apply E2. apply existsb_exists. exists h. split; [exact Hh|].
    apply existsb_exists. exists s. split; [exact Hs|now apply Nat.ltb_lt].
Qed.

(** Two operators on one site: their product is replaced by twice the first one. *)
Theorem C65_same_site_refuted : forall (val : nat -> string -> Z) (tau c : Z) a b,
  toExpH 0%Z Z.add Z.mul Z.opp "ZW1" (fun _ l => l) tau val 1 [HT c [ST a 1; ST b 1]] =
  Ok (val 1%nat "Id"%string - tau * (2 * c * val 1%nat a))%Z.
Proof.
  intros val tau c a b.
  assert (E1 : st_eqb IL (ST a 1) = false) by (apply st_eqb_neq; discriminate).
  unfold toExpH, toExpH_ZW1, eentry. cbn -[Z.mul Z.add Z.opp startTerm endTerm isF st_eqb].
  unfold eentry. cbn -[Z.mul Z.add Z.opp startTerm endTerm isF st_eqb]. rewrite ?E1.
  change (st_eqb IL IL) with true. change (isF IL) with false.
  cbn -[Z.mul Z.add Z.opp startTerm endTerm]. f_equal. ring.
Qed.
(** A term on site 0 is dropped without an error. *)
Theorem C65_site_zero_refuted : forall (val : nat -> string -> Z) (tau c : Z),
  toExpH 0%Z Z.add Z.mul Z.opp "ZW1" (fun _ l => l) tau val 1 [HT c [ST "Sz" 0]]%string = Ok (val 1%nat "Id"%string).
Proof. intros. unfold toExpH, toExpH_ZW1. cbn. unfold eentry. cbn. rewrite ?Z.add_0_r. reflexivity. Qed.

(** Four terms on five sites.  The sets that do not overlap: none, each term, Sx(3) with Cdag(1)C(2), Sx(3) with Sz(4)Sz(5),
    Cdag(1)C(2) with Sz(4)Sz(5), and those three. *)
Definition ex65 : list (@hterm Z) :=
  [HT 2%Z [ST "Sx" 3]; HT 3%Z [ST "Cdag" 1; ST "C" 2]; HT 5%Z [ST "Sz" 4; ST "Sz" 5]; HT 7%Z [ST "Sz" 1; ST "Sx" 4]]%string.
Definition val65 (n : nat) (s : string) : Z :=
  if String.eqb s "Id" then 1%Z else if String.eqb s "Sx" then 11%Z else if String.eqb s "Sz" then 13%Z
  else if String.eqb s "A" then 17%Z else if String.eqb s "Adag" then 19%Z else 0%Z.
Example C65_nonvacuous :
  (forall h, In h ex65 -> one_or_two_sites 5 h) /\
  (forall tau, toExpH 0%Z Z.add Z.mul Z.opp "ZW1" (fun _ l => rev l) tau val65 5 ex65 =
    let a := (- tau * 2 * 11)%Z in let b := (- tau * 3 * 17 * 19)%Z in let c := (- tau * 5 * 13 * 13)%Z in
    let d := (- tau * 7 * 13 * 11)%Z in
    Ok (1 + (a + b + c + d) + (a * b + a * c + b * c) + a * b * c)%Z) /\
  toMPO_elt 0%Z Z.add Z.mul (fun _ l => l) val65 5 ex65 = Ok (2 * 11 + 3 * 17 * 19 + 5 * 13 * 13 + 7 * 13 * 11)%Z.
Proof.
  assert (W : forall h, In h ex65 -> one_or_two_sites 5 h).
  { intros h H. repeat (destruct H as [<-|H]); [| | | |easy].
    - left. eexists. split; [reflexivity|cbn; lia].
    - right. do 2 eexists. split; [reflexivity|cbn; lia].
    - right. do 2 eexists. split; [reflexivity|cbn; lia].
    - right. do 2 eexists. split; [reflexivity|cbn; lia]. }
  split; [exact W|]. split; [|vm_compute; reflexivity]. intros tau.
  rewrite (C65_expansion Z 0%Z 1%Z Z.add Z.mul Z.sub Z.opp InitialRing.Zth val65 tau 5 ex65 (fun _ l => rev l) ltac:(lia) W).
  - cbv zeta. f_equal. cbn -[Z.mul Z.add Z.opp]. ring.
  - intros. apply Permutation_sym, Permutation_rev.
Qed.

Print Assumptions C65_expansion.
Print Assumptions C65_first_order.
Print Assumptions C65_no_time.
Print Assumptions C65_refuses.
Print Assumptions C65_same_site_refuted.
Print Assumptions C65_site_zero_refuted.
