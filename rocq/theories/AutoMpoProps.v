(** C34-C37: AutoMPO terms, sums of terms, the exact matrix product form, Jordan-Wigner strings. *)
From Coq Require Import List Arith Bool String Lia ZArith Permutation Sorted Ring.
From Verif Require Import Util AutoMpoModel AutoMpoSpec AutoMpoProofs AutoMpoChain SiteOpsModel AutoMpoJW.
Import ListNotations.

(** *** A concrete algebra for the examples: quaternions over Z; i, j, k anticommute. *)
Definition quat := (Z * Z * Z * Z)%type.
Definition qadd (x y : quat) : quat :=
  let '(a, b, c, d) := x in let '(e, f, g, h) := y in (a + e, b + f, c + g, d + h)%Z.
Definition qmul (x y : quat) : quat :=
  let '(a, b, c, d) := x in let '(e, f, g, h) := y in
  (a*e - b*f - c*g - d*h, a*f + b*e + c*h - d*g, a*g - b*h + c*e + d*f, a*h + b*g - c*f + d*e)%Z.
Definition qscal (r : Z) (x : quat) : quat := let '(a, b, c, d) := x in (r*a, r*b, r*c, r*d)%Z.
(** fermionic operators on sites 1, 2, 3 are i, j, k; other operators are the number 2. *)
Definition qint (t : sterm) : quat :=
  if fermionic t then
    match st_i t with 1 => (0, 1, 0, 0)%Z | 2 => (0, 0, 1, 0)%Z | 3 => (0, 0, 0, 1)%Z | _ => (0, 0, 0, 0)%Z end
  else (2, 0, 0, 0)%Z.

Lemma quat_laws : algebra_laws 0%Z 1%Z Z.add Z.mul (0,0,0,0)%Z (1,0,0,0)%Z qadd qmul qscal.
Proof.
  constructor; intros;
  repeat match goal with x : quat |- _ => destruct x as [[[? ?] ?] ?] | x : (_ * _)%type |- _ => destruct x end; cbn [qadd qmul qscal];
  repeat match goal with |- (_, _) = (_, _) => apply f_equal2 end; ring.
Qed.
Lemma quat_exchange : exchange_rules 1%Z Z.opp qmul qscal qint.
Proof.
  intros [oa ia] [ob ib] H. unfold qint, fermionic in *. cbn [st_op st_i] in *.
  destruct (prefix "C" oa), (prefix "C" ob); cbn [andb];
  repeat match goal with |- context[match ?n with O => _ | S _ => _ end] => destruct n end; try congruence; try reflexivity.
Qed.

(** C34.  Adding operators one by one to a term keeps them ordered by site, keeps the order of those
    on the same site, and loses none. *)
Theorem C34_order : forall (R : Type) (r0 r1 : R) radd rmul rsub ropp,
  ring_theory r0 r1 radd rmul rsub ropp eq ->
  forall l : list (sterm * R),
  let t := fold_left (fun h p => ht_add r1 rmul ropp h (st_op (fst p)) (st_i (fst p)) (snd p)) l (ht_new r1) in
  StronglySorted (fun a b => st_i a <= st_i b) (ht_ops t) /\
  (forall s, filter (fun o => Nat.eqb (st_i o) s) (ht_ops t) = filter (fun o => Nat.eqb (st_i o) s) (map fst l)).
Proof.
  intros R r0 r1 radd rmul rsub ropp RT l t.
  exact (ht_adds_ops r1 rmul ropp l (ht_new r1) [] (SSorted_nil _) (fun s => eq_refl)).
Qed.

(** C34.  In every algebra where operators on different sites commute, or anticommute if both are
    fermionic, the resulting coefficient times the resulting product equals the product of the
    operators in the order they were added, times the given factors. *)
Theorem C34_product : forall (R : Type) (r0 r1 : R) radd rmul rsub ropp,
  ring_theory r0 r1 radd rmul rsub ropp eq ->
  forall (A : Type) (azero aone : A) aadd amul scal, algebra_laws r0 r1 radd rmul azero aone aadd amul scal ->
  forall I, exchange_rules r1 ropp amul scal I ->
  forall l : list (sterm * R),
  let t := fold_left (fun h p => ht_add r1 rmul ropp h (st_op (fst p)) (st_i (fst p)) (snd p)) l (ht_new r1) in
  scal (ht_coef t) (product aone amul I (ht_ops t)) =
  scal (rprod r1 rmul (map snd l)) (product aone amul I (map fst l)).
Proof.
  intros R r0 r1 radd rmul rsub ropp RT A azero aone aadd amul scal AL I EX l t.
  pose proof (ht_adds_value r0 r1 radd rmul rsub ropp RT azero aone aadd amul scal AL I EX l (ht_new r1) [] r1
    (SSorted_nil _) eq_refl) as H. cbn [app] in H. unfold t. unfold ht_adds in H. rewrite H.
  f_equal. apply (Rmul_1_l RT).
Qed.

(** A fermionic term given out of order: C at 3, N at 2, Cdag at 1, Cdag at 2. *)
Definition ex34 : list (sterm * Z) :=
  [(ST "C" 3, 5%Z); (ST "N" 2, 1%Z); (ST "Cdag" 1, 1%Z); (ST "Cdag" 2, 1%Z)]%string.
Example C34_nonvacuous :
  let t := fold_left (fun h p => ht_add 1%Z Z.mul Z.opp h (st_op (fst p)) (st_i (fst p)) (snd p)) ex34 (ht_new 1%Z) in
  t = HT 5%Z [ST "Cdag" 1; ST "N" 2; ST "Cdag" 2; ST "C" 3]%string /\
  qscal (ht_coef t) (product (1,0,0,0)%Z qmul qint (ht_ops t)) = (-10, 0, 0, 0)%Z /\
  qscal 5 (product (1,0,0,0)%Z qmul qint (map fst ex34)) = (-10, 0, 0, 0)%Z.
Proof. vm_compute. repeat split; reflexivity. Qed.

(** Comparing two equal terms reads past the end of both operator lists. *)
Theorem C34_equality_refuted : forall (R : Type) (ceq : R -> R -> bool) (t : @hterm R),
  ceq (ht_coef t) (ht_coef t) = true -> ht_eq ceq t t = UB.
Proof.
  intros R ceq t H. unfold ht_eq. rewrite H, Nat.eqb_refl. cbn [negb].
  cut (forall n l, List.length l >= n -> ops_eq_loop (S n) (List.length l - n) l l = UB).
  { intros G. specialize (G (List.length (ht_ops t)) (ht_ops t) (le_n _)). now rewrite Nat.sub_diag in G. }
  induction n as [|n IH]; intros l L; cbn [ops_eq_loop].
  - rewrite Nat.sub_0_r. assert (E : nth_error l (List.length l) = None) by (apply nth_error_None; lia). now rewrite E.
  - destruct (nth_error l (List.length l - S n)) as [x|] eqn:E; [|reflexivity]. rewrite st_eqb_refl.
    replace (S (List.length l - S n)) with (List.length l - n) by lia. apply IH. lia.
Qed.

(** C35.  After any history of adds the stored terms sum to the sum of everything added (in every
    algebra and for every meaning of the operator names), and no operator string is stored twice. *)
Theorem C35_sum : forall (R : Type) (r0 r1 : R) radd rmul rsub ropp riszero,
  ring_theory r0 r1 radd rmul rsub ropp eq -> (forall c, riszero c = true <-> c = r0) ->
  forall (A : Type) (azero aone : A) aadd amul scal, algebra_laws r0 r1 radd rmul azero aone aadd amul scal ->
  forall (I : sterm -> A) (history : list (@hterm R)),
  let stored := fold_left (am_add radd riszero) history [] in
  opsum azero aone aadd amul scal I stored = opsum azero aone aadd amul scal I history /\
  NoDup (map ht_ops stored).
Proof.
  intros R r0 r1 radd rmul rsub ropp riszero RT RZ A azero aone aadd amul scal AL I history stored. unfold stored.
  cut (forall l s, NoDup (map ht_ops s) ->
    opsum azero aone aadd amul scal I (fold_left (am_add radd riszero) l s) =
    aadd (opsum azero aone aadd amul scal I s) (opsum azero aone aadd amul scal I l) /\
    NoDup (map ht_ops (fold_left (am_add radd riszero) l s))).
  { intros G. destruct (G history [] (NoDup_nil _)) as [G1 G2]. split; [|exact G2].
    rewrite G1. apply (al_add_zero _ _ _ _ _ _ _ _ _ AL). }
  induction l as [|t l IH]; intros s ND.
  - cbn. split; [|exact ND]. rewrite (al_add_comm _ _ _ _ _ _ _ _ _ AL). symmetry. apply (al_add_zero _ _ _ _ _ _ _ _ _ AL).
  - cbn [fold_left]. destruct (IH (am_add radd riszero s t) (am_add_nodup radd riszero s t ND)) as [H1 H2].
    split; [|exact H2]. rewrite H1.
    rewrite (am_add_sum r0 r1 radd rmul riszero RZ azero aone aadd amul scal AL I s t ND).
    unfold opsum. cbn. symmetry. apply (al_add_assoc _ _ _ _ _ _ _ _ _ AL).
Qed.

(** C35.  The order used by the set of terms is a strict total order on operator strings. *)
Theorem C35_set_order : forall (R : Type) (a b c : @hterm R),
  lessNoCoef a a = false /\
  (lessNoCoef a b = true -> lessNoCoef b c = true -> lessNoCoef a c = true) /\
  ((lessNoCoef a b = false /\ lessNoCoef b a = false) <-> ht_ops a = ht_ops b).
Proof.
  intros R a b c. split; [apply less_irrefl|]. split; [apply less_trans|].
  rewrite <- equivT_spec. unfold equivT. rewrite andb_true_iff, !negb_true_iff. reflexivity.
Qed.

(** C35.  A statement `ampo += ...` adds the coefficient times the product of its operators. *)
Theorem C35_statement : forall (R : Type) (r0 r1 : R) radd rmul rsub ropp riszero,
  ring_theory r0 r1 radd rmul rsub ropp eq -> (forall c, riszero c = true <-> c = r0) ->
  forall (A : Type) (azero aone : A) aadd amul scal, algebra_laws r0 r1 radd rmul azero aone aadd amul scal ->
  forall I, exchange_rules r1 ropp amul scal I ->
  forall inj (s : list (@hterm R)) t0 l c ops, NoDup (map ht_ops s) ->
  stmt_means r1 rmul inj (t0 :: l) c ops -> ops <> [] ->
  exists s', am_stmt r1 radd rmul ropp riszero inj s t0 l = Ok s' /\ NoDup (map ht_ops s') /\
    opsum azero aone aadd amul scal I s' =
    aadd (opsum azero aone aadd amul scal I s) (scal c (product aone amul I ops)).
Proof.
  intros R r0 r1 radd rmul rsub ropp riszero RT RZ A azero aone aadd amul scal AL I EX inj s t0 l c ops ND M NE.
  assert (FIN : forall c0 c1 h w l' ops', StronglySorted sle (ht_ops h) -> stmt_means r1 rmul inj l' c1 ops' ->
    scal (ht_coef h) (product aone amul I (ht_ops h)) = scal r1 (product aone amul I w) ->
    rmul c0 c1 = c -> w ++ ops' = ops -> List.length w = List.length (ht_ops h) ->
    exists s', match acc_commas r1 rmul ropp inj (Acc None c0 h) l' with Ok a => acc_finish radd rmul riszero s a | Err => Err | UB => UB end = Ok s' /\
      NoDup (map ht_ops s') /\ opsum azero aone aadd amul scal I s' =
      aadd (opsum azero aone aadd amul scal I s) (scal c (product aone amul I ops))).
  { intros c0 c1 h w l' ops' S M' V EC EO LW.
    destruct (commas_means r0 r1 radd rmul rsub ropp RT azero aone aadd amul scal AL I EX inj l' c1 ops' M' c0 h w r1 S V)
      as [a [H1 [H2 [H3 [H4 H5]]]]].
    rewrite H1. unfold acc_finish. rewrite H2. unfold ht_scale.
    destruct (ht_ops (ac_term a)) as [|x xs] eqn:E.
    { exfalso. apply NE. rewrite <- EO. cbn in H4. destruct w; [|cbn in LW; lia]. destruct ops'; [reflexivity|cbn in H4; lia]. }
    eexists. split; [reflexivity|]. split; [now apply am_add_nodup|].
    rewrite (am_add_sum r0 r1 radd rmul riszero RZ azero aone aadd amul scal AL I s _ ND). f_equal. cbn [ht_coef ht_ops].
    rewrite (Rmul_comm RT), <- (al_scal_mul _ _ _ _ _ _ _ _ _ AL), H5, (al_scal_mul _ _ _ _ _ _ _ _ _ AL), H3, EC, EO.
    f_equal. rewrite (Rmul_comm RT). apply (Rmul_1_l RT). }
  unfold am_stmt. inversion M as [|x l' c' ops' M'|i l' c' ops' M'|nm i l' c' ops' M']; subst.
  - apply (FIN x c' (ht_new r1) [] l ops (SSorted_nil _) M'); reflexivity.
  - apply (FIN (inj i) c' (ht_new r1) [] l ops (SSorted_nil _) M'); reflexivity.
  - cbn [acc_start acc_commas acc_comma ac_op ac_coef ac_term].
    apply (FIN r1 c (ht_add r1 rmul ropp (ht_new r1) nm i r1) [ST nm i] l' ops').
    + constructor; constructor.
    + exact M'.
    + cbn. f_equal. apply (Rmul_1_l RT).
    + apply (Rmul_1_l RT).
    + reflexivity.
    + reflexivity.
Qed.

(** C35.  Two names in a row, a name without a site, or no operator at all is an error. *)
Theorem C35_rejects : forall (R : Type) (r1 : R) radd rmul ropp riszero inj (s : list (@hterm R)) a b t0 l,
  am_stmt r1 radd rmul ropp riszero inj s (TStr a) (TStr b :: l) = Err /\
  am_stmt r1 radd rmul ropp riszero inj s (TStr a) [] = Err /\
  (Forall (fun t => match t with TStr _ => False | _ => True end) (t0 :: l) ->
   am_stmt r1 radd rmul ropp riszero inj s t0 l = Err).
Proof.
  intros. split; [reflexivity|]. split; [reflexivity|]. intros F. unfold am_stmt.
  cut (forall l c, Forall (fun t : @tok R => match t with TStr _ => False | _ => True end) l ->
        exists c', acc_commas r1 rmul ropp inj (Acc None c (ht_new r1)) l = Ok (Acc None c' (ht_new r1))).
  { intros G. inversion F as [|? ? F0 F1]; subst. destruct t0 as [x|i|nm]; [| |contradiction];
      cbn [acc_start]; match goal with |- context[Acc None ?c _] => destruct (G l c F1) as [c' ->] end; reflexivity. }
  induction l0 as [|t l0 IH]; intros c F2; [now exists c|]. inversion F2 as [|? ? F3 F4]; subst.
  destruct t as [x|i|nm]; [| |contradiction]; cbn; now apply IH.
Qed.

Example C35_nonvacuous :
  let st h := match h with Ok s => s | _ => [] end in
  let s1 := st (am_stmt 1%Z Z.add Z.mul Z.opp (Z.eqb 0) Z.of_nat [] (TNum 3%Z) [TStr "C"; TInt 2; TStr "Cdag"; TInt 1]%string) in
  let s2 := st (am_stmt 1%Z Z.add Z.mul Z.opp (Z.eqb 0) Z.of_nat s1 (TStr "N"%string) [TInt 1]) in
  let s3 := st (am_stmt 1%Z Z.add Z.mul Z.opp (Z.eqb 0) Z.of_nat s2 (TNum 4%Z) [TStr "Cdag"; TInt 1; TStr "C"; TInt 2]%string) in
  s3 = [HT 1%Z [ST "N" 1]; HT 1%Z [ST "Cdag" 1; ST "C" 2]]%string /\
  stmt_means 1%Z Z.mul Z.of_nat [TNum 3%Z; TStr "C"; TInt 2; TStr "Cdag"; TInt 1]%string 3%Z [ST "C" 2; ST "Cdag" 1]%string.
Proof. split; [vm_compute; reflexivity|]. change 3%Z with (3 * 1)%Z at 2. repeat constructor. Qed.

(** *** C36 *)
Definition one_or_two_sites {R} (N : nat) (h : @hterm R) : Prop :=
  (exists a, ht_ops h = [a] /\ 1 <= st_i a <= N) \/
  (exists a b, ht_ops h = [a; b] /\ 1 <= st_i a /\ st_i a < st_i b /\ st_i b <= N).

(** C36.  Without QNs: every matrix element of the MPO (val n op: the element of operator op on site n)
    is the sum over the terms of coefficient times the product of the operators placed on the sites. *)
Theorem C36_exact : forall (R : Type) (r0 r1 : R) radd rmul rsub ropp, ring_theory r0 r1 radd rmul rsub ropp eq ->
  forall (val : nat -> string -> R) N (terms : list (@hterm R)), 1 <= N ->
  (forall h, In h terms -> one_or_two_sites N h) ->
  toMPO_elt r0 radd rmul (fun _ l => l) val N terms = Ok (total_value r0 r1 radd rmul val N terms).
Proof.
  intros R r0 r1 radd rmul rsub ropp RT val N terms HN WF.
  apply (toMPO_total r0 r1 radd rmul rsub ropp RT N terms val WF (fun _ l => l)); [intros; reflexivity|exact HN|].
  unfold basis0. rewrite Nat.ltb_irrefl. destruct (Nat.leb_spec 1 N); [|lia]. cbn [app].
  cut (forall (l : list (@hterm R)) bn, hd st_none bn = HL -> hd st_none (fold_left (bstep N) l bn) = HL).
  { intros G. apply G. reflexivity. }
  induction l as [|h l IH]; intros bn Hb; [exact Hb|]. cbn [fold_left]. apply IH. unfold bstep.
  destruct (_ && _); [|exact Hb]. destruct (existsb _ bn); [exact Hb|]. destruct bn; [discriminate|exact Hb].
Qed.

(** C36.  With QNs: the basis of every link is sorted so that zero QN comes first.  If the sort keeps
    the order of the elements with zero QN, the MPO is again the sum of the terms. *)
Theorem C36_exact_qn : forall (R : Type) (r0 r1 : R) radd rmul rsub ropp, ring_theory r0 r1 radd rmul rsub ropp eq ->
  forall (val : nat -> string -> R) N (terms : list (@hterm R)) (isz : sterm -> bool) (srt : nat -> list sterm -> list sterm),
  1 <= N -> (forall h, In h terms -> one_or_two_sites N h) ->
  isz HL = true ->
  (forall n l, Permutation (srt n l) l) ->
  (forall n l, StronglySorted (fun a b => isz b = true -> isz a = true) (srt n l)) ->
  (forall n l, filter isz (srt n l) = filter isz l) ->
  toMPO_elt r0 radd rmul srt val N terms = Ok (total_value r0 r1 radd rmul val N terms).
Proof.
  intros R r0 r1 radd rmul rsub ropp RT val N terms isz srt HN WF ZH SP SS SF.
  apply (toMPO_total r0 r1 radd rmul rsub ropp RT N terms val WF srt SP HN).
  set (bs := basis0 N terms N).
  assert (HB : hd st_none bs = HL /\ bs <> []).
  { unfold bs, basis0. rewrite Nat.ltb_irrefl. destruct (Nat.leb_spec 1 N); [|lia]. cbn [app].
    cut (forall (l : list (@hterm R)) bn, hd st_none bn = HL /\ bn <> [] -> hd st_none (fold_left (bstep N) l bn) = HL /\ fold_left (bstep N) l bn <> []).
    { intros G. apply G. split; [reflexivity|discriminate]. }
    induction l as [|h l IH]; intros bn Hb; [exact Hb|]. cbn [fold_left]. apply IH. unfold bstep.
    destruct (_ && _); [|exact Hb]. destruct (existsb _ bn); [exact Hb|]. destruct bn; [easy|]. split; [apply Hb|discriminate]. }
  destruct HB as [HB HE]. destruct bs as [|b0 bs'] eqn:EB; [easy|]. cbn in HB. subst b0.
  specialize (SP N (HL :: bs')). specialize (SS N (HL :: bs')). specialize (SF N (HL :: bs')).
  destruct (srt N (HL :: bs')) as [|x xs].
  { apply Permutation_nil in SP. discriminate. }
  cbn. assert (ZX : isz x = true).
  { assert (IN : In HL (x :: xs)) by (eapply Permutation_in; [apply Permutation_sym, SP|now left]).
    destruct IN as [->|IN]; [exact ZH|]. inversion SS as [|? ? _ F]; subst. rewrite Forall_forall in F. now apply (F HL). }
  cbn in SF. rewrite ZX, ZH in SF. now injection SF as ->.
Qed.

(** If the sort moves another zero-QN element to the front of the last link, the MPO is wrong: here
    all QNs are zero, so every permutation is a sorted one; the term is Sz on site 1 times Sz on site 2. *)
Theorem C36_sort_refuted :
  exists (srt : nat -> list sterm -> list sterm) (val : nat -> string -> Z) (terms : list (@hterm Z)),
    (forall n l, Permutation (srt n l) l) /\
    (forall h, In h terms -> one_or_two_sites 2 h) /\
    exists v, toMPO_elt 0%Z Z.add Z.mul srt val 2 terms = Ok v /\ v <> total_value 0%Z 1%Z Z.add Z.mul val 2 terms.
Proof.
  exists (fun _ l => rev l), (fun n s => if String.eqb s "Sz" then 1%Z else if String.eqb s "Id" then 1%Z else 0%Z),
    [HT 2%Z [ST "Sz" 1; ST "Sz" 2]]%string.
  split; [intros; apply Permutation_sym, Permutation_rev|]. split.
  - intros h [<-|[]]. right. exists (ST "Sz" 1)%string, (ST "Sz" 2)%string. cbn. repeat split; lia.
  - exists 1%Z. split; [vm_compute; reflexivity|]. vm_compute. discriminate.
Qed.

(** Two operators on the same site: the MPO holds twice the first one instead of their product. *)
Theorem C36_same_site_refuted : forall (val : nat -> string -> Z) (c : Z) a b,
  toMPO_elt 0%Z Z.add Z.mul (fun _ l => l) val 1 [HT c [ST a 1; ST b 1]] = Ok (2 * c * val 1%nat a)%Z.
Proof.
  intros val c a b.
  assert (E1 : st_eqb IL (ST a 1) = false) by (apply st_eqb_neq; discriminate).
  assert (E2 : st_eqb HL (ST a 1) = false) by (apply st_eqb_neq; discriminate).
  unfold toMPO_elt, wentry. cbn -[Z.mul Z.add startTerm endTerm isF st_eqb]. rewrite ?E1, ?E2.
  cbn [orb hd]. unfold wentry. cbn -[Z.mul Z.add startTerm endTerm isF st_eqb]. rewrite ?E1, ?E2.
  change (st_eqb HL HL) with true. change (st_eqb IL IL) with true. change (st_eqb HL IL) with false.
  cbn -[Z.mul Z.add startTerm endTerm]. f_equal. ring.
Qed.

(** A term on site 0 is dropped without an error. *)
Theorem C36_site_zero_refuted : forall (val : nat -> string -> Z) (c : Z),
  toMPO_elt 0%Z Z.add Z.mul (fun _ l => l) val 1 [HT c [ST "Sz" 0]]%string = Ok 0%Z.
Proof. intros. unfold toMPO_elt, wentry. cbn. reflexivity. Qed.

Definition ex36 : list (@hterm Z) :=
  [HT 2%Z [ST "Sx" 2]; HT 3%Z [ST "Sz" 1; ST "Sz" 3]; HT 5%Z [ST "Cdag" 1; ST "C" 3]; HT 7%Z [ST "Sz" 1; ST "Sx" 2]]%string.
Example C36_nonvacuous :
  (forall h, In h ex36 -> one_or_two_sites 3 h) /\
  toMPO_elt 0%Z Z.add Z.mul (fun _ l => l) (fun n s => Z.of_nat (n + String.length s)) 3 ex36 =
    Ok (2 * (3 * 4 * 5) + 3 * (3 * 4 * 5) + 5 * (5 * 3 * 4) + 7 * (3 * 4 * 5))%Z.
Proof.
  split; [|vm_compute; reflexivity]. intros h H. repeat (destruct H as [<-|H]); [| | | |easy].
  - left. eexists. split; [reflexivity|cbn; lia].
  - right. do 2 eexists. split; [reflexivity|cbn; lia].
  - right. do 2 eexists. split; [reflexivity|cbn; lia].
  - right. do 2 eexists. split; [reflexivity|cbn; lia].
Qed.

(** *** C37 *)
(** C37.  The operators placed on each site for a term with an even number of fermionic operators
    multiply to the Jordan-Wigner image of the term, on every site. *)
Theorem C37_terms : forall (L : Type) (lone : L) lmul,
  (forall x y z, lmul x (lmul y z) = lmul (lmul x y) z) -> (forall x, lmul lone x = x) -> (forall x, lmul x lone = x) ->
  forall loc : nat -> string -> L,
  (forall n, lmul (loc n "F"%string) (loc n "F"%string) = lone) -> (forall n, loc n "Id"%string = lone) ->
  (forall n s, loc n (fermionicTerm s) = loc n s) ->
  forall ops n, StronglySorted (fun a b => st_i a <= st_i b) ops -> Nat.even (nfermi ops) = true ->
  (exists p, siteProd ops n = Ok p /\ p <> [] /\ (forall t, In t p -> st_i t = n) /\
     fold_right lmul lone (map (fun t => loc n (st_op t)) p) = jw_image lone lmul loc ops n) /\
  ((forall t, In t ops -> st_i t < n) \/ (forall t, In t ops -> n < st_i t) -> jw_image lone lmul loc ops n = lone).
Proof.
  intros L lone lmul H1 H2 H3 loc FF ID RW ops n S EV. split.
  - destruct (siteProd_image lone lmul H1 H2 H3 loc FF ID RW ops n S EV) as [p [Q1 [Q2 [Q3 Q4]]]].
    exists p. split; [exact Q1|]. split; [exact Q3|]. split; [exact Q2|exact Q4].
  - now apply image_outside.
Qed.

(** C37.  The operator tables of ElectronSite and FermionSite meet the conditions. *)
Theorem C37_electron : forall ops n,
  StronglySorted (fun a b => st_i a <= st_i b) ops -> Nat.even (nfermi ops) = true ->
  exists p, siteProd ops n = Ok p /\
    fold_right lm l1 (map (fun t => lop electron_ops (st_op t)) p) = jw_image (@l1 4) lm (fun _ => lop electron_ops) ops n.
Proof.
  intros ops n S EV.
  destruct (C37_terms (L 4) l1 lm lm4_assoc lm4_one_l lm4_one_r (fun _ => lop electron_ops)) with (ops := ops) (n := n) as [[p [Q1 [_ [_ Q2]]]] _]; try assumption.
  - intros _. apply L_eq. vm_compute. reflexivity.
  - intros _. apply L_eq. vm_compute. reflexivity.
  - intros _. apply electron_RW.
  - exists p. split; assumption.
Qed.
Theorem C37_fermion : forall ops n,
  StronglySorted (fun a b => st_i a <= st_i b) ops -> Nat.even (nfermi ops) = true ->
  exists p, siteProd ops n = Ok p /\
    fold_right lm l1 (map (fun t => lop fermion_ops (st_op t)) p) = jw_image (@l1 2) lm (fun _ => lop fermion_ops) ops n.
Proof.
  intros ops n S EV.
  destruct (C37_terms (L 2) l1 lm lm2_assoc lm2_one_l lm2_one_r (fun _ => lop fermion_ops)) with (ops := ops) (n := n) as [[p [Q1 [_ [_ Q2]]]] _]; try assumption.
  - intros _. apply L_eq. vm_compute. reflexivity.
  - intros _. apply L_eq. vm_compute. reflexivity.
  - intros _. apply fermion_RW.
  - exists p. split; assumption.
Qed.

(** C37.  The Jordan-Wigner images of two operators on different sites, a left of b, exchange on every
    site; on site a, and nowhere else, F is moved past a, which gives the sign when both are fermionic. *)
Theorem C37_exchange : forall (L : Type) (lone : L) lmul (lneg : L -> L),
  (forall x, lmul lone x = x) -> (forall x, lmul x lone = x) ->
  forall (loc : nat -> string -> L) a b, st_i a < st_i b ->
  (if fermionic a then lmul (loc (st_i a) (st_op a)) (loc (st_i a) "F"%string) = lneg (lmul (loc (st_i a) "F"%string) (loc (st_i a) (st_op a)))
   else lmul (loc (st_i a) (st_op a)) (loc (st_i a) "F"%string) = lmul (loc (st_i a) "F"%string) (loc (st_i a) (st_op a))) ->
  forall n, let x := jw_local lone loc a n in let y := jw_local lone loc b n in
  lmul x y = if Nat.eqb n (st_i a) && fermionic a && fermionic b then lneg (lmul y x) else lmul y x.
Proof.
  intros L lone lmul lneg H1 H2 loc a b AB HF n x y. unfold x, y, jw_local.
  destruct (Nat.eqb_spec n (st_i a)) as [->|Q1].
  - destruct (Nat.eqb_spec (st_i a) (st_i b)); [lia|]. destruct (Nat.ltb_spec (st_i a) (st_i b)); [|lia]. cbn [andb].
    destruct (fermionic a), (fermionic b); cbn [andb]; rewrite ?H1, ?H2; try exact HF; reflexivity.
  - cbn [andb]. destruct (Nat.eqb_spec n (st_i b)) as [->|Q2].
    + destruct (Nat.ltb_spec (st_i b) (st_i a)); [lia|]. cbn [andb]. now rewrite H1, H2.
    + destruct (Nat.ltb_spec n (st_i a)), (Nat.ltb_spec n (st_i b)); try lia; cbn [andb];
        destruct (fermionic a), (fermionic b); rewrite ?H1, ?H2; reflexivity.
Qed.

(** The fermionic operators of the two site sets anticommute with F and obey the canonical relations. *)
Theorem C37_tables :
  (forall s, In s ["Cup"; "Cdagup"; "Cdn"; "Cdagdn"]%string ->
     electron_op (s ++ "*F") = omap mneg (electron_op ("F*" ++ s))) /\
  (forall s, In s ["Nup"; "Ndn"; "Nupdn"; "Ntot"; "S+"; "S-"; "Fup"; "Fdn"; "F"]%string ->
     electron_op (s ++ "*F") = electron_op ("F*" ++ s)) /\
  electron_op "Cdagup*Cup" = electron_op "Nup" /\ electron_op "Cdagdn*Cdn" = electron_op "Ndn" /\
  electron_op "Cup*Cdn" = omap mneg (electron_op "Cdn*Cup") /\
  electron_op "Cdagup*Cdn" = omap mneg (electron_op "Cdn*Cdagup") /\
  electron_op "Cdagup*Cdn" = electron_op "S+" /\
  (forall s, In s ["C"; "Cdag"]%string -> fermion_op (s ++ "*F") = omap mneg (fermion_op ("F*" ++ s))) /\
  fermion_op "Cdag*C" = fermion_op "N".
Proof.
  split; [intros s H; repeat (destruct H as [<-|H]; [vm_compute; reflexivity|]); easy|].
  split; [intros s H; repeat (destruct H as [<-|H]; [vm_compute; reflexivity|]); easy|].
  repeat (split; [vm_compute; reflexivity|]).
  split; [intros s H; repeat (destruct H as [<-|H]; [vm_compute; reflexivity|]); easy|].
  vm_compute; reflexivity.
Qed.

(** A term with an odd number of fermionic operators gets the wrong string: C on site 2 should put F
    on site 1, and no F on site 2; the code leaves site 1 alone and multiplies by F on site 2. *)
Theorem C37_odd_refuted :
  exists ops, StronglySorted (fun a b => st_i a <= st_i b) ops /\ Nat.even (nfermi ops) = false /\
    jw_image (@l1 2) lm (fun _ => lop fermion_ops) ops 1 <> l1 /\
    exists p, siteProd ops 2 = Ok p /\
      fold_right lm l1 (map (fun t => lop fermion_ops (st_op t)) p) <> jw_image (@l1 2) lm (fun _ => lop fermion_ops) ops 2.
Proof.
  exists [ST "C" 2]%string. split; [repeat constructor|]. split; [reflexivity|]. split.
  - intros H. apply (f_equal (fun x => proj1_sig x)) in H. vm_compute in H. discriminate.
  - eexists. split; [reflexivity|]. intros H. apply (f_equal (fun x => proj1_sig x)) in H. vm_compute in H. discriminate.
Qed.

(** C37, exact conversion, FermionSite: a pair of C / Cdag gets its Jordan-Wigner image on every site. *)
Theorem C37_exact_fermion : forall a b n, st_i a < st_i b ->
  In (st_op a) ["C"; "Cdag"]%string -> In (st_op b) ["C"; "Cdag"]%string ->
  @lop 2 fermion_ops (placed [a; b] n) = jw_image l1 lm (fun _ => lop fermion_ops) [a; b] n.
Proof.
  intros [oa ia] [ob ib] n H Ha Hb. cbn [st_op st_i] in *. unfold jw_image, jw_local, placed. cbn [map st_op st_i fold_right].
  cbn [In] in Ha, Hb.
  assert (Fa : fermionic (ST oa ia) = true) by (destruct Ha as [<-|[<-|[]]]; reflexivity).
  assert (Fb : fermionic (ST ob ib) = true) by (destruct Hb as [<-|[<-|[]]]; reflexivity).
  rewrite Fa, Fb.
  destruct (Nat.eqb_spec n ia), (Nat.eqb_spec n ib), (Nat.ltb_spec n ia), (Nat.ltb_spec ia n), (Nat.ltb_spec n ib); try lia; cbn [andb].
  all: destruct Ha as [<-|[<-|[]]], Hb as [<-|[<-|[]]]; apply L_eq; vm_compute; reflexivity.
Qed.

(** C37, exact conversion, ElectronSite: the first operator is right up to the sign -1 exactly for Cdn,
    the second exactly for Cdagdn; all other sites are right. *)
Theorem C37_exact_electron_signs : forall a b n, st_i a < st_i b ->
  In (st_op a) ["Cup"; "Cdagup"; "Cdn"; "Cdagdn"]%string -> In (st_op b) ["Cup"; "Cdagup"; "Cdn"; "Cdagdn"]%string ->
  let m := proj1_sig (@lop 4 electron_ops (placed [a; b] n)) in
  let j := proj1_sig (jw_image (@l1 4) lm (fun _ => lop electron_ops) [a; b] n) in
  m = if (Nat.eqb n (st_i a) && String.eqb (st_op a) "Cdn") || (Nat.eqb n (st_i b) && String.eqb (st_op b) "Cdagdn")
      then mneg j else j.
Proof.
  intros [oa ia] [ob ib] n H Ha Hb. cbn [st_op st_i] in *. unfold jw_image, jw_local, placed. cbn [map st_op st_i fold_right].
  cbn [In] in Ha, Hb.
  assert (Fa : fermionic (ST oa ia) = true) by (destruct Ha as [<-|[<-|[<-|[<-|[]]]]]; reflexivity).
  assert (Fb : fermionic (ST ob ib) = true) by (destruct Hb as [<-|[<-|[<-|[<-|[]]]]]; reflexivity).
  rewrite Fa, Fb.
  destruct (Nat.eqb_spec n ia), (Nat.eqb_spec n ib), (Nat.ltb_spec n ia), (Nat.ltb_spec ia n), (Nat.ltb_spec n ib); try lia; cbn [andb orb].
  all: destruct Ha as [<-|[<-|[<-|[<-|[]]]]], Hb as [<-|[<-|[<-|[<-|[]]]]]; vm_compute; reflexivity.
Qed.

(** So the exact conversion of Cdn on site 1 times Cdagup on site 2 is minus the operator asked for:
    on site 1 the placed operator is the negative of the Jordan-Wigner image, on site 2 it is right. *)
Theorem C37_exact_sign_refuted :
  let ops := [ST "Cdn" 1; ST "Cdagup" 2]%string in
  let placedm n := proj1_sig (@lop 4 electron_ops (placed ops n)) in
  let jw n := proj1_sig (jw_image (@l1 4) lm (fun _ => lop electron_ops) ops n) in
  placedm 1 = mneg (jw 1) /\ placedm 1 <> jw 1 /\ placedm 2 = jw 2 /\ jw 2 <> mneg (jw 2).
Proof. vm_compute. repeat split; discriminate. Qed.

(** A hopping term with a density in between: Cdagup(1) Nup(2) Cup(3) on electron sites. *)
Example C37_nonvacuous :
  let ops := [ST "Cdagup" 1; ST "Nup" 2; ST "Cup" 3]%string in
  StronglySorted (fun a b => st_i a <= st_i b) ops /\ Nat.even (nfermi ops) = true /\
  siteProd ops 1 = Ok [ST "Adagup" 1; ST "F" 1]%string /\ siteProd ops 2 = Ok [ST "Nup" 2; ST "F" 2]%string /\
  siteProd ops 3 = Ok [ST "Aup" 3]%string /\
  jw_image (@l1 4) lm (fun _ => lop electron_ops) ops 2 <> l1.
Proof.
  cbv zeta. split; [repeat (constructor; cbn; try lia)|]. repeat (split; [vm_compute; reflexivity|]).
  intros H. apply (f_equal (fun x => proj1_sig x)) in H. vm_compute in H. discriminate.
Qed.

Print Assumptions C34_order.
Print Assumptions C34_product.
Print Assumptions C34_equality_refuted.
Print Assumptions C35_sum.
Print Assumptions C35_set_order.
Print Assumptions C35_statement.
Print Assumptions C35_rejects.
Print Assumptions C36_exact.
Print Assumptions C36_exact_qn.
Print Assumptions C36_sort_refuted.
Print Assumptions C36_same_site_refuted.
Print Assumptions C36_site_zero_refuted.
Print Assumptions C37_terms.
Print Assumptions C37_electron.
Print Assumptions C37_fermion.
Print Assumptions C37_exchange.
Print Assumptions C37_tables.
Print Assumptions C37_odd_refuted.
Print Assumptions C37_exact_fermion.
Print Assumptions C37_exact_electron_signs.
Print Assumptions C37_exact_sign_refuted.
