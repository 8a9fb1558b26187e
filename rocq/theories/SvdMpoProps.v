(** C50: the default ("SVD") conversion of an AutoMPO.  Vocabulary: SvdMpoSpec.v and AutoMpoSpec.v; the
    model is SvdMpoModel.v. *)
From Coq Require Import List ZArith Arith Lia Bool String Sorted Ring.
From Verif Require Import Util AutoMpoModel AutoMpoSpec AutoMpoProofs AutoMpoJW SvdMpoModel SvdMpoSum SvdMpoTerms SvdMpoPart SvdMpoSweep SvdMpoChain SvdMpoSpec.
Import ListNotations.
Local Open Scope outcome_scope.
Local Arguments Nat.sub : simpl never.

(** C50.  If the singular value decompositions of the coefficient matrices of the links (the SVD itself is
    not modelled: vof stands for it) discard nothing, then every element of the MPO is the element of the
    sum of the terms, each with its Jordan-Wigner strings; whatever the number of sites, the number of
    terms, the number of operators in a term (several on one site too) and the quantum numbers. *)
Theorem C50_sum : forall (R : Type) (r0 r1 : R) radd rmul conj ceq tiny,
  semi_ring_theory r0 r1 radd rmul eq -> (forall x, ceq x x = true) ->
  forall (Q : Type) (q0 : Q) qadd qeqb qltb, (forall a b, qeqb a b = true <-> a = b) ->
  (forall a b c, qadd a (qadd b c) = qadd (qadd a b) c) -> (forall a, qadd q0 a = a) -> (forall a, qadd a q0 = a) ->
  forall opq, (forall n, opq (ST "Id" n) = q0) -> (forall n, opq (ST "F" n) = q0) -> (forall s n, opq (ST (fermionicTerm s) n) = opq (ST s n)) ->
  forall (L : Type) (lone : L) lmul,
  (forall x y z, lmul x (lmul y z) = lmul (lmul x y) z) -> (forall x, lmul lone x = x) -> (forall x, lmul x lone = x) ->
  forall loc : nat -> string -> L,
  (forall n, lmul (loc n "F"%string) (loc n "F"%string) = lone) -> (forall n, loc n "Id"%string = lone) -> (forall n s, loc n (fermionicTerm s) = loc n s) ->
  forall (elt : nat -> L -> R) vof N (terms : list (@hterm R)),
  NoDup (map ht_ops terms) -> (forall h, In h terms -> good_term q0 qadd opq N h /\ tiny (ht_coef h) = false) -> tiny r1 = false ->
  (forall qbs temp link q b, partitionHTerms r1 ceq q0 qadd qeqb qltb opq N terms = Ok (qbs, temp) -> In link qbs -> In (q, b) link ->
     keeps_all r0 radd rmul conj (toMatrix r0 (b_mat b)) (vof (toMatrix r0 (b_mat b)))) ->
  svdMPO_elt r0 r1 radd rmul conj ceq tiny q0 qadd qeqb qltb opq vof (prod_elt lone lmul loc elt) N terms =
  Ok (terms_elt r0 r1 radd rmul lone lmul loc elt N terms).
Proof.
  intros R r0 r1 radd rmul conj ceq tiny SR CR Q q0 qadd qeqb qltb QS QA QL QR opq OI OF OR L lone lmul A1 A2 A3 loc LF LI LR elt vof N T ND G T1 EX.
  set (val := prod_elt lone lmul loc elt).
  assert (WF : forall h, In h T -> wf q0 qadd opq N (ht_ops h)).
  { intros h H. destruct (G h H) as [(g1 & g2 & g3 & g4 & g5 & g6) _]. constructor; auto. rewrite isFp_par, par_nfermi. rewrite <- Nat.negb_odd in g4. now destruct (Nat.odd (nfermi (ht_ops h))). }
  destruct (partition_inv r1 ceq CR q0 qadd qeqb qltb QS QA QL QR opq N T ND WF) as (qbs & temp & EP & I).
  assert (EX' : forall q b m, In (q, b) (nth m qbs []) -> exact r0 radd rmul conj (toMatrix r0 (b_mat b)) (vof (toMatrix r0 (b_mat b)))).
  { intros q b m H. destruct (Nat.lt_ge_cases m (List.length qbs)) as [Hm|Hm]; [|rewrite nth_overflow in H by auto; destruct H]. exact (EX qbs temp (nth m qbs []) q b EP (nth_In qbs [] Hm) H). }
  destruct (svd_result r0 r1 radd rmul conj ceq tiny SR q0 qadd qeqb qltb QS QA QL QR opq OI OF OR vof val N T qbs temp ND WF (fun h H => proj2 (G h H)) T1 I EX') as (v & ES & EV).
  unfold svdMPO_elt. rewrite EP. cbn [obind states link0 flat_map map app oget nth_error fst snd seq]. fold val. rewrite ES. cbn [obind]. unfold states, link_of. cbn [flat_map map app fst snd seq]. cbn [Nat.add seq map app oget nth_error obind].
  f_equal. rewrite EV. unfold lsum, terms_elt, ssum. f_equal. apply map_ext_in. intros h Hh. f_equal.
  destruct (G h Hh) as [(g1 & g2 & g3 & g4 & g5 & g6) _].
  assert (VS : forall n, val n (spp (ht_ops h) n) = elt n (jw_image lone lmul loc (ht_ops h) n)).
  { intros n. destruct (siteProd_image lone lmul A1 A2 A3 loc LF LI LR (ht_ops h) n g2 g4) as (p & E1 & E2 & E3 & E4). unfold val, prod_elt, spp. rewrite E1. f_equal. exact E4. }
  clear -VS SR. induction N as [|N IH]; [reflexivity|]. rewrite seq_S, map_app. cbn [Lv map]. rewrite IH, VS. cbn [Nat.add].
  generalize (map (fun n => elt n (jw_image lone lmul loc (ht_ops h) n)) (seq 1 N)). intros l. set (x := elt (S N) _). clearbody x. clear IH.
  induction l as [|y l IHl]; cbn [fold_right app].
  - rewrite (SRmul_1_l SR), (SRmul_comm SR), (SRmul_1_l SR). reflexivity.
  - rewrite <- (SRmul_assoc SR), IHl. reflexivity.
Qed.

(** C50.  A term with an operator outside the chain is refused. *)
Lemma part_site_len {R Q} (r1 : R) ceq (q0 : Q) qadd qeqb qltb opq c ops n (s : list (list (Q * @block R)) * list (list (@elem R Q))) :
  match part_site r1 ceq q0 qadd qeqb qltb opq c ops n s with
  | Ok s' => List.length (fst s') = List.length (fst s) /\ List.length (snd s') = List.length (snd s)
  | Err => True | UB => False end.
Proof.
  destruct s as [qbs temp]. unfold part_site. destruct (decomposeTerm n ops) as [[l o] r].
  assert (RW : forall b : bool, match (match o with [] => Ok [ST (if b then "F" else "Id")%string n] | _ => rewriteFermionic o b end) with UB => False | _ => True end).
  { intros b. destruct o as [|o0 o]; [exact Logic.I|]. unfold rewriteFermionic. destruct (existsb _ _); exact Logic.I. }
  assert (AT : forall X (v : list X) k, match at_ v k with UB => False | _ => True end).
  { intros X v k. unfold at_. destruct (k <? 0)%Z; [exact Logic.I|]. destruct (nth_error v (Z.to_nat k)); exact Logic.I. }
  match goal with |- match obind ?A _ with _ => _ end => assert (H : match A with Ok (q, _, _) => List.length q = List.length qbs | Err => True | UB => False end) end.
  { destruct l as [|l0 l].
    - destruct r as [|r0' r]; [reflexivity|]. pose proof (AT _ qbs (Z.of_nat n - 1)%Z) as X. destruct (at_ qbs _); cbn [obind]; auto. destruct (posInBlock _ _). unfold put_at. now rewrite upd_length.
    - pose proof (AT _ qbs (Z.of_nat n - 2)%Z) as X. destruct (at_ qbs (Z.of_nat n - 2)); cbn [obind]; auto. destruct r as [|r0' r].
      + destruct (posInBlock o _), (posInBlock (l0 :: l) _). unfold put_at. now rewrite upd_length.
      + destruct (posInBlock (o ++ _) _). pose proof (AT _ qbs (Z.of_nat n - 1)%Z) as X'. destruct (at_ qbs (Z.of_nat n - 1)); cbn [obind]; auto. destruct (posInBlock _ _), (posInBlock (l0 :: l) _). unfold put_at. now rewrite !upd_length. }
  match goal with |- match obind ?A _ with _ => _ end => destruct A as [[[q j] k]| |]; cbn [obind]; auto end.
  specialize (RW (isFp l)). match goal with |- match obind ?A _ with _ => _ end => destruct A as [p| |]; cbn [obind]; auto end.
  pose proof (AT _ temp (Z.of_nat n - 1)%Z) as X. destruct (at_ temp (Z.of_nat n - 1)); cbn [obind]; auto. cbn [fst snd]. unfold put_at. rewrite upd_length. auto.
Qed.
Lemma part_site_out {R Q} (r1 : R) ceq (q0 : Q) qadd qeqb qltb opq c ops n N (s : list (list (Q * @block R)) * list (list (@elem R Q))) :
  List.length (snd s) = N -> ~ 1 <= n <= N -> part_site r1 ceq q0 qadd qeqb qltb opq c ops n s = Err.
Proof.
  intros Hs Hn. pose proof (part_site_len r1 ceq q0 qadd qeqb qltb opq c ops n s) as L. destruct s as [qbs temp]. cbn [fst snd] in *.
  assert (AT : at_ temp (Z.of_nat n - 1) = Err).
  { unfold at_. destruct (Z.ltb_spec (Z.of_nat n - 1) 0); [reflexivity|]. assert (E : nth_error temp (Z.to_nat (Z.of_nat n - 1)) = None) by (apply nth_error_None; lia). now rewrite E. }
  unfold part_site in *. destruct (decomposeTerm n ops) as [[l o] r]. rewrite AT in *. cbn [obind] in *.
  match goal with |- obind ?A _ = _ => destruct A as [[[q j] k]| |]; cbn [obind] in *; try reflexivity; try contradiction end.
  match goal with |- obind ?A _ = _ => destruct A as [p| |]; cbn [obind] in *; try reflexivity; try contradiction end.
Qed.
Theorem C50_out_of_range : forall (R : Type) (r0 r1 : R) radd rmul conj ceq tiny (Q : Type) (q0 : Q) qadd qeqb qltb opq vof val N (terms : list (@hterm R)) h t,
  (forall h, In h terms -> ht_ops h <> [] /\ StronglySorted (fun a b => st_i a <= st_i b) (ht_ops h)) ->
  In h terms -> In t (ht_ops h) -> ~ 1 <= st_i t <= N ->
  svdMPO_elt r0 r1 radd rmul conj ceq tiny q0 qadd qeqb qltb opq vof val N terms = Err.
Proof.
  intros R r0 r1 radd rmul conj ceq tiny Q q0 qadd qeqb qltb opq vof val N terms h t HW Hh Ht Hn.
  assert (PS : forall c ops ns (s : list (list (Q * @block R)) * list (list (@elem R Q))), List.length (snd s) = N ->
    match part_sites r1 ceq q0 qadd qeqb qltb opq c ops ns s with Ok s' => List.length (snd s') = N /\ (forall n, In n ns -> 1 <= n <= N) | Err => True | UB => False end).
  { intros c ops ns. induction ns as [|n ns IH]; intros s Hs; cbn [part_sites]; [split; [exact Hs|intros ? []]|].
    pose proof (part_site_len r1 ceq q0 qadd qeqb qltb opq c ops n s) as L. pose proof (part_site_out r1 ceq q0 qadd qeqb qltb opq c ops n N s Hs) as O.
    destruct (part_site r1 ceq q0 qadd qeqb qltb opq c ops n s) as [s'| |]; cbn [obind]; auto. destruct L as [_ L]. specialize (IH s' ltac:(lia)).
    destruct (part_sites r1 ceq q0 qadd qeqb qltb opq c ops ns s'); auto. destruct IH as [I1 I2]. split; auto. intros k [<-|Hk]; auto.
    destruct (le_lt_dec 1 n), (le_lt_dec n N); try lia; discriminate O; lia. }
  assert (PT : forall ts (s : list (list (Q * @block R)) * list (list (@elem R Q))), (forall h, In h ts -> In h terms) -> List.length (snd s) = N ->
    match part_terms r1 ceq q0 qadd qeqb qltb opq ts s with Ok s' => ~ In h ts | Err => True | UB => False end).
  { induction ts as [|h' ts IH]; intros s Hts Hs; cbn [part_terms]; [intros []|]. destruct (HW h' (Hts h' (or_introl eq_refl))) as [Ne So]. unfold part_term. destruct (ht_ops h') as [|o0 o] eqn:Eo; [congruence|].
    match goal with |- context [part_sites _ _ _ _ _ _ _ _ _ ?ns s] => specialize (PS (ht_coef h') (o0 :: o) ns s Hs); remember ns as nn eqn:En end.
    destruct (part_sites r1 ceq q0 qadd qeqb qltb opq (ht_coef h') (o0 :: o) nn s) as [s'| |]; cbn [obind]; auto. destruct PS as [P1 P2].
    specialize (IH s' ltac:(intros; apply Hts; now right) P1). destruct (part_terms r1 ceq q0 qadd qeqb qltb opq ts s'); auto. intros [->|X]; [|contradiction].
    apply Hn. apply P2. rewrite En. unfold ht_first, ht_last. apply in_seq. rewrite Eo in *. pose proof (sorted_bounds (o0 :: o) t So Ht). lia. }
  unfold svdMPO_elt, partitionHTerms. specialize (PT terms (repeat [] N, repeat [] N) ltac:(auto) (repeat_length _ _)).
  destruct (part_terms r1 ceq q0 qadd qeqb qltb opq terms (repeat [] N, repeat [] N)); cbn [obind]; auto; contradiction.
Qed.

(** *** Concrete sites: 2x2 matrices over Z *)
Notation m2 := (bool -> bool -> Z).
Definition one2 : m2 := fun i j => if Bool.eqb i j then 1%Z else 0%Z.
Definition mul2 (a b : m2) : m2 := fun i j => (a i false * b false j + a i true * b true j)%Z.
(** Fermions: state false is empty, state true is occupied. *)
Definition ferm_loc (n : nat) (s : string) : m2 :=
  if String.eqb s "C" || String.eqb s "A" then fun i j => if negb i && j then 1%Z else 0%Z
  else if String.eqb s "Cdag" || String.eqb s "Adag" then fun i j => if i && negb j then 1%Z else 0%Z
  else if String.eqb s "F" then fun i j => if Bool.eqb i j then (if i then -1 else 1)%Z else 0%Z
  else one2.
Definition ferm_q (t : sterm) : Z :=
  if String.eqb (st_op t) "Cdag" || String.eqb (st_op t) "Adag" then 1%Z
  else if String.eqb (st_op t) "C" || String.eqb (st_op t) "A" then (-1)%Z else 0%Z.
(** Spins: state true is up. *)
Definition spin_loc (n : nat) (s : string) : m2 :=
  if String.eqb s "S+" then fun i j => if i && negb j then 1%Z else 0%Z
  else if String.eqb s "S-" then fun i j => if negb i && j then 1%Z else 0%Z else one2.
Definition spin_q (t : sterm) : Z := if String.eqb (st_op t) "S+" then 2%Z else if String.eqb (st_op t) "S-" then (-2)%Z else 0%Z.
(** All unit vectors: they keep everything. *)
Definition unitv (M : list (list Z)) : nat * list (list Z) :=
  let nc := List.length (hd [] M) in (nc, map (fun i => map (fun j => if Nat.eqb i j then 1 else 0)%Z (seq 0 nc)) (seq 0 nc)).
Lemma unitv_keeps : keeps_all 0%Z Z.add Z.mul (fun x => x) [[1%Z]] (unitv [[1%Z]]) /\ keeps_all 0%Z Z.add Z.mul (fun x => x) [[1%Z]; [1%Z]] (unitv [[1%Z]; [1%Z]]).
Proof.
  split; intros nr nc [H1 H2] _; cbn in H1; subst nr; pose proof (H2 0 ltac:(lia)) as X; cbn in X; subst nc; (split; [split; [reflexivity|]; intros [|r] Hr; [reflexivity|cbn in Hr; lia]|]);
    intros l j Hl Hj; (assert (j = 0) by lia); subst j.
  - assert (l = 0) by lia. subst l. reflexivity.
  - assert (l = 0 \/ l = 1) as [-> | ->] by lia; reflexivity.
Qed.

(** A term that does not conserve the quantum number is not refused: 5 S+(1) next to S+(1)S-(2).  The
    element for raising site 1 and lowering site 2 is 1 in the sum of the terms (the first term has no
    such element), and 6 in the MPO: the coefficient of the first term was added to the second one. *)
Theorem C50_unbalanced_refuted :
  let terms := [HT 5%Z [ST "S+" 1]; HT 1%Z [ST "S+" 1; ST "S-" 2]]%string in
  let elt n x := if Nat.eqb n 1 then x true false else x false true in
  (forall M, In M [[[1%Z]]] -> keeps_all 0%Z Z.add Z.mul (fun x => x) M (unitv M)) /\
  (exists qbs temp, partitionHTerms 1%Z Z.eqb 0%Z Z.add Z.eqb Z.ltb spin_q 2 terms = Ok (qbs, temp) /\
     map (fun b => toMatrix 0%Z (b_mat (snd b))) (List.concat qbs) = [[[1%Z]]]) /\
  svdMPO_elt 0%Z 1%Z Z.add Z.mul (fun x => x) Z.eqb (Z.eqb 0) 0%Z Z.add Z.eqb Z.ltb spin_q unitv (prod_elt one2 mul2 spin_loc elt) 2 terms = Ok 6%Z /\
  terms_elt 0%Z 1%Z Z.add Z.mul one2 mul2 spin_loc elt 2 terms = 1%Z.
Proof.
  cbv zeta. split; [intros M [<-|[]]; apply unitv_keeps|]. split; [eexists; eexists; split; [vm_compute; reflexivity|vm_compute; reflexivity]|]. split; vm_compute; reflexivity.
Qed.

(** Mixing the names of the user with those used for renamed operators loses a term: C Cdag C on site 1
    times Cdag on site 2, and A Adag C on site 1 times Cdag on site 2, both with coefficient 1.  Both are
    renamed to A Adag A F on site 1, and the second element is taken for a copy of the first. *)
Theorem C50_mixed_names_refuted :
  let terms := [HT 1%Z [ST "C" 1; ST "Cdag" 1; ST "C" 1; ST "Cdag" 2]; HT 1%Z [ST "A" 1; ST "Adag" 1; ST "C" 1; ST "Cdag" 2]]%string in
  let elt n x := if Nat.eqb n 1 then x false true else x true false in
  (forall M, In M [[[1%Z]; [1%Z]]] -> keeps_all 0%Z Z.add Z.mul (fun x => x) M (unitv M)) /\
  (exists qbs temp, partitionHTerms 1%Z Z.eqb 0%Z Z.add Z.eqb Z.ltb ferm_q 2 terms = Ok (qbs, temp) /\
     map (fun b => toMatrix 0%Z (b_mat (snd b))) (List.concat qbs) = [[[1%Z]; [1%Z]]]) /\
  exists v, svdMPO_elt 0%Z 1%Z Z.add Z.mul (fun x => x) Z.eqb (Z.eqb 0) 0%Z Z.add Z.eqb Z.ltb ferm_q unitv (prod_elt one2 mul2 ferm_loc elt) 2 terms = Ok v /\
    terms_elt 0%Z 1%Z Z.add Z.mul one2 mul2 ferm_loc elt 2 terms = (2 * v)%Z /\ v <> 0%Z.
Proof.
  cbv zeta. split; [intros M [<-|[]]; apply unitv_keeps|]. split; [eexists; eexists; split; [vm_compute; reflexivity|vm_compute; reflexivity]|].
  eexists. split; [vm_compute; reflexivity|]. split; [vm_compute; reflexivity|discriminate].
Qed.

(** *** A case that meets the hypotheses, with fewer singular vectors than columns *)
From Coq Require Import QArith.QArith_base QArith.Qcanon.
Section Nonvacuous.
Local Open Scope Qc_scope.
Notation qz n := (Q2Qc (inject_Z n)).
Notation q2 := (bool -> bool -> Qc).
Definition qone : q2 := fun i j => if Bool.eqb i j then 1 else 0.
Definition M34 : list (list Qc) := [[qz 3; qz 4]; [qz 6; qz 8]].
Definition M1 : list (list Qc) := [[1]].
Definition eqM (a b : list (list Qc)) : bool :=
  forallb (fun x => x) (map (fun p => forallb (fun x => x) (map (fun q => Qc_eq_bool (fst q) (snd q)) (combine (fst p) (snd p)))) (combine a b)) &&
  Nat.eqb (List.length a) (List.length b) && Nat.eqb (List.length (hd [] a)) (List.length (hd [] b)).
(** One singular vector (3/5, 4/5) for the matrix of rank one. *)
Definition vec (M : list (list Qc)) : nat * list (list Qc) :=
  if eqM M M34 then (1%nat, [[Q2Qc (3 # 5)%Q]; [Q2Qc (4 # 5)%Q]]) else (1%nat, [[1]]).
(** 3 Sz(1)Sz(3) + 4 Sz(1)Sx(3) + 6 Sx(1)Sz(3) + 8 Sx(1)Sx(3) + Cdag(1)N(2)C(3) + 2 N(2). *)
Definition ex_terms : list (@hterm Qc) :=
  [HT (qz 3) [ST "Sz" 1; ST "Sz" 3]; HT (qz 4) [ST "Sz" 1; ST "Sx" 3]; HT (qz 6) [ST "Sx" 1; ST "Sz" 3]; HT (qz 8) [ST "Sx" 1; ST "Sx" 3];
   HT 1 [ST "Cdag" 1; ST "N" 2; ST "C" 3]; HT (qz 2) [ST "N" 2]]%string.
Definition ceqQ (a b : Qc) := Qc_eq_bool a b.

Example C50_nonvacuous :
  NoDup (map ht_ops ex_terms) /\
  (forall h, In h ex_terms -> good_term 0%Z Z.add ferm_q 3 h /\ Qc_eq_bool 0 (ht_coef h) = false) /\
  (exists qbs temp, partitionHTerms 1 ceqQ 0%Z Z.add Z.eqb Z.ltb ferm_q 3 ex_terms = Ok (qbs, temp) /\
     map (map (fun b => (fst b, eqM (toMatrix 0 (b_mat (snd b))) M34, eqM (toMatrix 0 (b_mat (snd b))) M1))) qbs = [[(0%Z, true, false); (1%Z, false, true)]; [(0%Z, true, false); (1%Z, false, true)]; []]) /\
  keeps_all 0 Qcplus Qcmult (fun x => x) M34 (vec M34) /\ keeps_all 0 Qcplus Qcmult (fun x => x) M1 (vec M1).
Proof.
  split; [|split; [|split; [|split]]].
  - repeat constructor; cbn; intuition congruence.
  - intros h Hh. assert (Hg : good_term 0%Z Z.add ferm_q 3 h) by (
      cbn in Hh; decompose [or] Hh; try contradiction; subst h; unfold good_term; cbn [ht_ops];
      (split; [discriminate|split; [repeat constructor; cbn; lia|split; [|split; [reflexivity|split; [reflexivity|]]]]];
       intros t Ht; cbn in Ht; decompose [or] Ht; try contradiction; subst t; cbn; try lia; intuition discriminate)).
    split; [exact Hg|]. cbn in Hh. decompose [or] Hh; try contradiction; subst h; vm_compute; reflexivity.
  - eexists. eexists. split; [vm_compute; reflexivity|]. vm_compute. reflexivity.
  - intros nr nc [H1 H2] _. cbn in H1. subst nr. pose proof (H2 0%nat ltac:(lia)) as X. cbn in X. subst nc.
    split; [split; [reflexivity|]; intros [|[|r]] Hr; [reflexivity|reflexivity|cbn in Hr; lia]|].
    intros l j Hl Hj. assert (Hc : (l = 0 \/ l = 1)%nat) by lia. assert (Hd : (j = 0 \/ j = 1)%nat) by lia.
    destruct Hc as [-> | ->], Hd as [-> | ->]; apply Qc_is_canon; vm_compute; reflexivity.
  - intros nr nc [H1 H2] _. cbn in H1. subst nr. pose proof (H2 0%nat ltac:(lia)) as X. cbn in X. subst nc.
    split; [split; [reflexivity|]; intros [|r] Hr; [reflexivity|cbn in Hr; lia]|].
    intros l j Hl Hj. assert (l = 0 /\ j = 0)%nat as [-> ->] by lia. apply Qc_is_canon; vm_compute; reflexivity.
Qed.
End Nonvacuous.

Print Assumptions C50_sum.
Print Assumptions C50_out_of_range.
Print Assumptions C50_unbalanced_refuted.
Print Assumptions C50_mixed_names_refuted.
Print Assumptions C50_nonvacuous.
