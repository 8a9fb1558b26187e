(** C74: expect, diag and size of LocalOp and LocalMPO describe the matrix that product applies. *)
From Coq Require Import ZArith List Bool Arith Lia Ring.
From Verif Require Import Util BigSum MpsModel MpsTensor MpsSpec MpsProofs LocalModel LocalSpec LocalProofs LocalTensor LocalMeaning LocalSem LocalProps LopModel LopProofs InnerProps.
Import ListNotations.
Local Open Scope outcome_scope.

Section C74.
Context {R : Type} (r0 r1 : R) (radd rmul rsub : R -> R -> R) (ropp : R -> R) (cj re : R -> R).
Context (RT : ring_theory r0 r1 radd rmul rsub ropp eq).
Add Ring RR : RT.
Notation wten := (wten R).
Notation edge := (@edge R).
Notation bsum := (bsum r0 radd).
Notation csum := (csum r0 radd).
Notation product := (local_product r0 radd rmul).
Notation diag := (diag r0 radd rmul cj re).
Notation expect := (expect r0 radd rmul cj re).
Notation basis := (basis r0 r1).
Notation sL := (stepL r0 radd rmul cj).
Notation sR := (stepR r0 radd rmul cj).
Notation me := (matrix_element r0 r1 radd rmul cj).

(** diag() holds, at every label, the real part of the diagonal element of the matrix product(.)
    applies: apply product to the basis vector of that label and read the same label off. *)
Theorem C74_diag : forall (L Rt : option edge) (ws : list wten) dl dw dv dr,
  (forall x, re (cj x) = re x) ->
  wlinked dw ws dv -> length ws <= 2 ->
  (L = None -> dl = 1 /\ dw = 1) -> (Rt = None -> dr = 1 /\ dv = 1) -> (L <> None \/ Rt <> None) ->
  exists d, diag L Rt ws dw dv = Ok d /\
    forall a c b, a < dl -> b < dr -> Forall2 lt c (wsites ws) ->
    exists f, product L Rt ws dl dw dr (basis a c b) = Ok f /\ d a c b = re (f a c b).
Proof.
  intros L Rt ws dl dw dv dr Rc K Hlen HL HR HB.
  destruct (diag_val r0 r1 radd rmul rsub ropp cj re RT L Rt ws dw dv K Hlen (fun E => proj2 (HL E)) (fun E => proj2 (HR E)) HB) as (d & Ed & Hd).
  exists d. split; [exact Ed|]. intros a c b Ha Hb V.
  destruct (local_ok r0 r1 radd rmul rsub ropp RT L Rt ws dl dw dv dr (basis a c b) K Hlen HL HR HB) as (f & Ef & Hf).
  exists f. split; [exact Ef|]. rewrite Hd by exact V. rewrite Rc. f_equal. symmetry. rewrite Hf; try assumption.
  - apply (eff_basis r0 r1 radd rmul rsub ropp RT); assumption.
  - apply f2_len in V. unfold wsites in V. now rewrite map_length in V.
Qed.

(** Where that diagonal element is its own conjugate, as for every Hermitian operator, diag() is the
    element itself. *)
Theorem C74_diag_hermitian : forall (L Rt : option edge) (ws : list wten) dl dw dv dr d f a c b,
  (forall x, re (cj x) = re x) -> (forall x, cj x = x -> re x = x) ->
  wlinked dw ws dv -> length ws <= 2 ->
  (L = None -> dl = 1 /\ dw = 1) -> (Rt = None -> dr = 1 /\ dv = 1) ->
  diag L Rt ws dw dv = Ok d -> a < dl -> b < dr -> Forall2 lt c (wsites ws) ->
  product L Rt ws dl dw dr (basis a c b) = Ok f -> cj (f a c b) = f a c b -> d a c b = f a c b.
Proof.
  intros L Rt ws dl dw dv dr d f a c b Rc Rr K Hlen HL HR Ed Ha Hb V Ef H.
  assert (HB : L <> None \/ Rt <> None) by (destruct L, Rt; [left|left|right|]; try discriminate).
  destruct (C74_diag L Rt ws dl dw dv dr Rc K Hlen HL HR HB) as (d' & Ed' & Hd). rewrite Ed in Ed'. injection Ed' as <-.
  destruct (Hd a c b Ha Hb V) as (f' & Ef' & E). rewrite Ef in Ef'. injection Ef' as <-. rewrite E. apply Rr, H.
Qed.

(** size() is the number of labels: the number of rows of that matrix. *)
Theorem C74_size : forall (L Rt : option edge) (ws : list wten) dl dr,
  length ws <= 2 -> (L = None -> dl = 1) -> (Rt = None -> dr = 1) -> (L <> None \/ Rt <> None) ->
  exists n, size L Rt ws dl dr = Ok n /\
    exists labels : list (nat * list nat * nat), NoDup labels /\ length labels = n /\
      forall a c b, In (a, c, b) labels <-> a < dl /\ Forall2 lt c (wsites ws) /\ b < dr.
Proof.
  intros L Rt ws dl dr Hlen HL HR HB.
  assert (E : exists n, size L Rt ws dl dr = Ok n /\ n = dl * length (tuples (wsites ws)) * dr).
  { unfold size. destruct ws as [|W1 [|W2 [|? ?]]]; cbn in Hlen; [| | |lia]; cbn [wsites map tuples];
      repeat rewrite pairs_len; repeat rewrite seq_length; cbn [length];
      (destruct L, Rt; [| | |destruct HB; congruence]); (eexists; split; [reflexivity|]);
      try (rewrite (HL eq_refl)); try (rewrite (HR eq_refl)); ring. }
  destruct E as (n & En & Hn). exists n. split; [exact En|].
  exists (pairs pair (pairs pair (seq 0 dl) (tuples (wsites ws))) (seq 0 dr)). split; [|split].
  - apply pairs_nodup; [intros ? ? ? ? E; injection E; auto| |apply seq_NoDup].
    apply pairs_nodup; [intros ? ? ? ? E; injection E; auto|apply seq_NoDup|apply tuples_nodup].
  - rewrite !pairs_len, !seq_length. now symmetry.
  - intros a c b. rewrite pairs_in. split.
    + intros (x & y & Hx & Hy & E). injection E as <- <-. apply pairs_in in Hx. destruct Hx as (a' & c' & Ha & Hc & E). injection E as <- <-.
      apply in_seq in Ha. apply in_seq in Hy. apply tuples_in in Hc. repeat split; [lia|assumption|lia].
    + intros (Ha & Hc & Hb). exists (a, c), b. split; [|split; [apply in_seq; lia|reflexivity]].
      apply pairs_in. exists a, c. split; [apply in_seq; lia|]. split; [now apply tuples_in|reflexivity].
Qed.

(** After every history on an MPO without boundary tensors, expect(phi) is the real part of
    <P|H|P>, where P has phi in place of the centre sites. *)
Theorem C74_expect : forall n (ws : Z -> wten) s psi b dl dw dv dr phi,
  (forall x y, cj (radd x y) = radd (cj x) (cj y)) -> (forall x y, cj (rmul x y) = rmul (cj x) (cj y)) -> cj r0 = r0 -> cj r1 = r1 ->
  (forall x, cj (cj x) = x) -> (forall x, re (cj x) = re x) ->
  (1 <= n)%Z -> lreach (sL ws) (sR ws) n true None None 0 (n + 1) s psi ->
  position_of s = Ok b -> (lnc s < n)%Z ->
  let c := Z.to_nat (lnc s) in let k := Z.to_nat (b - 1) in let m := Z.to_nat (n - (b - 1) - lnc s) in
  linked 1 (seg psi 1 k) dl -> linked dr (seg psi (b + lnc s) m) 1 ->
  wlinked 1 (seg ws 1 k) dw -> wlinked dw (seg ws b c) dv -> wlinked dv (seg ws (b + lnc s) m) 1 ->
  expect (getL s) (getR s) (seg ws b c) dl dw dr phi =
    Ok (re (me (seg psi 1 k) (seg psi (b + lnc s) m) (seg ws 1 k) (seg ws b c) (seg ws (b + lnc s) m) dl dr phi phi)).
Proof.
  intros n ws s psi b dl dw dv dr phi Ca Cm C0 C1 Cc Rc Hn H Hp Hc c k m LL LR WL WM WR.
  destruct (C40_projects r0 r1 radd rmul rsub ropp cj RT n ws s psi b dl dw dv dr phi Ca Cm C0 C1 Hn H Hp Hc LL LR WL WM WR) as (f & Ef & Hf).
  fold c k m in Ef, Hf. unfold LopModel.expect. rewrite Ef. cbn [obind]. f_equal. rewrite <- Hf. rewrite <- Rc. f_equal.
  rewrite (MpsProofs.conj_bsum r0 radd cj Ca C0). apply (bsum_ext r0 radd). intros a _.
  rewrite (conj_csum r0 radd cj Ca C0). apply (csum_ext r0 radd). intros x _.
  rewrite (MpsProofs.conj_bsum r0 radd cj Ca C0). apply (bsum_ext r0 radd). intros e _.
  rewrite Cm, Cc. ring.
Qed.

(** In particular, for the centre sites of psi, expect is the real part of <psi|H|psi>. *)
Theorem C74_expect_energy : forall n (ws : Z -> wten) s psi b dl dw dv dr,
  (forall x y, cj (radd x y) = radd (cj x) (cj y)) -> (forall x y, cj (rmul x y) = rmul (cj x) (cj y)) -> cj r0 = r0 -> cj r1 = r1 ->
  (forall x, cj (cj x) = x) -> (forall x, re (cj x) = re x) ->
  (1 <= n)%Z -> lreach (sL ws) (sR ws) n true None None 0 (n + 1) s psi ->
  position_of s = Ok b -> (lnc s < n)%Z ->
  let c := Z.to_nat (lnc s) in let k := Z.to_nat (b - 1) in let m := Z.to_nat (n - (b - 1) - lnc s) in
  linked 1 (seg psi 1 k) dl -> linked dl (seg psi b c) dr -> linked dr (seg psi (b + lnc s) m) 1 ->
  wlinked 1 (seg ws 1 k) dw -> wlinked dw (seg ws b c) dv -> wlinked dv (seg ws (b + lnc s) m) 1 ->
  wsites (seg ws b c) = sites (seg psi b c) ->
  expect (getL s) (getR s) (seg ws b c) dl dw dr (fun a cf e => chain r0 r1 radd rmul (seg psi b c) cf a e) =
    Ok (re (energy r0 r1 radd rmul cj (seg psi 1 (Z.to_nat n)) (seg ws 1 (Z.to_nat n)))).
Proof.
  intros n ws s psi b dl dw dv dr Ca Cm C0 C1 Cc Rc Hn H Hp Hc c k m LL LM LR WL WM WR Hsites. subst c k m.
  destruct (C40_energy r0 r1 radd rmul rsub ropp cj RT n ws s psi b dl dw dv dr Ca Cm C0 C1 Hn H Hp Hc LL LM LR WL WM WR Hsites) as (f & Ef & Hf).
  destruct (C40_projects r0 r1 radd rmul rsub ropp cj RT n ws s psi b dl dw dv dr (fun a cf e => chain r0 r1 radd rmul (seg psi b (Z.to_nat (lnc s))) cf a e) Ca Cm C0 C1 Hn H Hp Hc LL LR WL WM WR) as (f' & Ef' & Hf').
  rewrite Ef in Ef'. injection Ef' as <-.
  pose proof (C74_expect n ws s psi b dl dw dv dr (fun a cf e => chain r0 r1 radd rmul (seg psi b (Z.to_nat (lnc s))) cf a e) Ca Cm C0 C1 Cc Rc Hn H Hp Hc LL LR WL WM WR) as E.
  cbv zeta in E. rewrite E. f_equal. f_equal. rewrite <- Hf. symmetry. apply Hf'.
Qed.
(** After such a history, diag() holds the real part of <E|H|E> at every label, where E has the basis
    vector of that label in place of the centre sites. *)
Theorem C74_diag_projects : forall n (ws : Z -> wten) s psi b dl dw dv dr,
  (forall x y, cj (radd x y) = radd (cj x) (cj y)) -> (forall x y, cj (rmul x y) = rmul (cj x) (cj y)) -> cj r0 = r0 -> cj r1 = r1 ->
  (forall x, re (cj x) = re x) ->
  (1 <= n)%Z -> lreach (sL ws) (sR ws) n true None None 0 (n + 1) s psi ->
  position_of s = Ok b -> (lnc s < n)%Z ->
  let c := Z.to_nat (lnc s) in let k := Z.to_nat (b - 1) in let m := Z.to_nat (n - (b - 1) - lnc s) in
  linked 1 (seg psi 1 k) dl -> linked dr (seg psi (b + lnc s) m) 1 ->
  wlinked 1 (seg ws 1 k) dw -> wlinked dw (seg ws b c) dv -> wlinked dv (seg ws (b + lnc s) m) 1 ->
  exists d, diag (getL s) (getR s) (seg ws b c) dw dv = Ok d /\
    forall x y z, x < dl -> z < dr -> Forall2 lt y (wsites (seg ws b c)) ->
      d x y z = re (me (seg psi 1 k) (seg psi (b + lnc s) m) (seg ws 1 k) (seg ws b c) (seg ws (b + lnc s) m) dl dr (basis x y z) (basis x y z)).
Proof.
  intros n ws s psi b dl dw dv dr Ca Cm C0 C1 Rc Hn H Hp Hc c k m LL LR WL WM WR.
  pose proof (fun phi => C40_projects r0 r1 radd rmul rsub ropp cj RT n ws s psi b dl dw dv dr phi Ca Cm C0 C1 Hn H Hp Hc LL LR WL WM WR) as PR.
  cbv zeta in PR. fold c k m in PR.
  pose proof (reach_inv (sL ws) (sR ws) n true None None 0 (n + 1) ltac:(lia) s psi H) as (_ & Hc2 & HL & HR & _).
  pose proof (C40_current (sL ws) (sR ws) n true None None 0 (n + 1) s psi ltac:(lia) ltac:(lia) H) as (_ & _ & GL & GR).
  unfold position_of in Hp. destruct (Z.eqb_spec (lR s - lL s) (lnc s + 1)) as [Ew|]; [|discriminate]. injection Hp as Hb.
  unfold envL in GL. replace (Z.to_nat (lL s - 0)) with k in GL by lia.
  unfold envR in GR. replace (Z.to_nat (n + 1 - lR s)) with m in GR by lia.
  assert (Hs : forall x, k = S x -> getL s <> None) by (intros x Hx; rewrite GL, Hx; discriminate).
  assert (Hs' : forall x, m = S x -> getR s <> None) by (intros x Hx; rewrite GR, Hx; discriminate).
  destruct (C74_diag (getL s) (getR s) (seg ws b c) dl dw dv dr Rc WM) as (d & Ed & Hd).
  - rewrite seg_len. lia.
  - intros K. destruct k as [|k']; [|exfalso; exact (Hs _ eq_refl K)]. cbn in LL, WL. auto.
  - intros K. destruct m as [|m']; [|exfalso; exact (Hs' _ eq_refl K)]. cbn in LR, WR. auto.
  - destruct k as [|k'] eqn:Ek; [|left; eapply Hs; reflexivity]. right. destruct m as [|m'] eqn:Em; [lia|]. eapply Hs'; reflexivity.
  - exists d. split; [exact Ed|]. intros x y z Hx Hz V. destruct (Hd x y z Hx Hz V) as (f & Ef & ->).
    destruct (PR (basis x y z)) as (f' & Ef' & Hf). rewrite Ef in Ef'. injection Ef' as <-. f_equal. rewrite <- Hf.
    rewrite (bsum_pick r0 r1 radd rmul rsub ropp RT dl x); [|exact Hx|].
    + rewrite (csum_pick r0 r1 radd rmul rsub ropp RT (wsites (seg ws b c)) y); [|exact V|].
      * rewrite (bsum_pick r0 r1 radd rmul rsub ropp RT dr z); [|exact Hz|].
        -- rewrite basis_self, C1. ring.
        -- intros j _ Hj. rewrite basis_b, C0 by exact Hj. ring.
      * intros y' Hy. apply (bsum_zero r0 r1 radd rmul rsub ropp RT). intros j _. rewrite basis_c, C0 by exact Hy. ring.
    + intros j _ Hj. apply csum_zero with (1 := RT). intros y'. apply (bsum_zero r0 r1 radd rmul rsub ropp RT). intros j' _. rewrite basis_a, C0 by exact Hj. ring.
Qed.
End C74.

(** *** Gaussian integers, a left link and an MPO link of dimension 2, no right edge, two sites. *)
Definition gre (x : G) : G := (fst x, 0%Z).
Definition zg (n : nat) : G := (Z.of_nat n, 0%Z).
Definition lex : @edge G := fun a w a' => (Z.of_nat (1 + a + a' + w), (Z.of_nat a - Z.of_nat a')%Z).
Definition wex1 : wten G := mkWt 2 2 2 (fun w s s' v => (Z.of_nat (w + v + s * s'), (Z.of_nat s - Z.of_nat s')%Z)).
Definition wex2 : wten G := mkWt 2 2 1 (fun w s s' _ => (Z.of_nat (1 + w + s + s'), (Z.of_nat s - Z.of_nat s')%Z)).
Example C74_nonvacuous :
  (forall x, gre (gc x) = gre x) /\ (forall x, gc x = x -> gre x = x) /\ wlinked 2 [wex1; wex2] 1 /\
  exists d f, diag g0 ga gm gc gre (Some lex) None [wex1; wex2] 2 1 = Ok d /\
    local_product g0 ga gm (Some lex) None [wex1; wex2] 2 2 1 (basis g0 g1 1 [1%nat; 0%nat] 0) = Ok f /\
    gc (f 1%nat [1%nat; 0%nat] 0%nat) = f 1%nat [1%nat; 0%nat] 0%nat /\ d 1%nat [1%nat; 0%nat] 0%nat = (47, 0)%Z /\ f 0%nat [1%nat; 1%nat] 0%nat <> g0 /\
    size (Some lex) None [wex1; wex2] 2 1 = Ok 8.
Proof.
  split; [intros [x y]; reflexivity|]. split; [intros [x y] E; injection E; intros; unfold gre; cbn; f_equal; lia|].
  split; [cbn; auto|]. eexists. eexists. split; [reflexivity|]. split; [reflexivity|].
  vm_compute. repeat split; auto. intros E; discriminate.
Qed.

(** Three sites over the integers, the window of C40_nonvacuous_product. *)
Local Open Scope Z_scope.
Example C74_nonvacuous_expect :
  exists s, lreach (stepL 0 Z.add Z.mul (fun x => x) (fun _ => exw)) (stepR 0 Z.add Z.mul (fun x => x) (fun _ => exw))
      3 true None None 0 4 s (fun j => ext (Z.to_nat j mod 2)) /\
    position_of s = Ok 2 /\ lnc s = 1 /\
    expect 0 Z.add Z.mul (fun x => x) (fun x => x) (getL s) (getR s) [exw] 1 1 1 (fun _ c _ => if Nat.eqb (nth 0 c O) 0 then 3 else 1) = Ok 15552.
Proof.
  eexists. split.
  - after (Position 2) (after (Center 1) (apply lr_start)).
  - split; [reflexivity|]. split; [reflexivity|]. vm_compute. reflexivity.
Qed.

Print Assumptions C74_diag.
Print Assumptions C74_diag_hermitian.
Print Assumptions C74_size.
Print Assumptions C74_expect.
Print Assumptions C74_expect_energy.
Print Assumptions C74_diag_projects.
