(** C40: the environments of a LocalMPO are those of the current state, after every history. *)
From Coq Require Import ZArith List Bool Arith Lia Ring.
From Verif Require Import Util BigSum MpsModel MpsTensor MpsSpec MpsProofs LocalModel LocalSpec LocalProofs LocalTensor LocalMeaning LocalSem.
Import ListNotations.
Local Open Scope outcome_scope.
Local Open Scope Z_scope.

Section C40.
Context {E T : Type} (stepL stepR : Z -> option E -> T -> E).
Variables (n : Z) (op : bool) (bl br : option E) (l r : Z).

(** After every history of positions, changes of psi inside the window, shifts, resets and a switch
    to disk, L() and R() are exactly what the current psi gives. *)
Theorem C40_current : forall s psi, 0 <= l < r -> r <= n + 1 ->
  lreach stepL stepR n op bl br l r s psi ->
  l <= lL s < lR s /\ lR s <= r /\
  getL s = envL stepL bl l psi (lL s) /\ getR s = envR stepR br r psi (lR s).
Proof.
  intros s psi H1 H2 H. pose proof (reach_inv stepL stepR n op bl br l r (conj H1 H2) s psi H) as (B & Hc & HL & HR & OL & OR & IL & IR).
  split; [exact HL|]. split; [exact HR|]. unfold getL, getR. split.
  - unfold inL in IL. rewrite IL. apply OL. lia.
  - unfold inR in IR. rewrite IR. apply OR; lia.
Qed.

(** No valid call fails, and position(b) leaves the window at b. *)
Theorem C40_succeeds : forall s psi o, 0 <= l < r -> r <= n + 1 ->
  lreach stepL stepR n op bl br l r s psi -> lvalid n op bl br l r s o ->
  exists s' psi', lstep stepL stepR s psi o = Ok (s', psi') /\
    match o with Position b => position_of s' = Ok b /\ lL s' = b - 1 | _ => True end.
Proof.
  intros s psi o H1 H2 H V. pose proof (reach_inv stepL stepR n op bl br l r (conj H1 H2) s psi H) as I.
  destruct (step_ok stepL stepR n op bl br l r (conj H1 H2) s psi o I V) as (s' & psi' & Es & _ & P). exists s', psi'. split; [exact Es|].
  destruct o; try exact Logic.I. destruct P as (P1 & P2 & _). split; [|exact P1]. unfold position_of. rewrite P1, P2.
  destruct (Z.eqb_spec (b + lnc s' - (b - 1)) (lnc s' + 1)); [f_equal; lia|lia].
Qed.

(** shift(j,Fromright,A) never works: it compares j+1 with the left limit. *)
Theorem C40_shift_fromright_refuted : forall s psi j A, 0 <= l < r -> r <= n + 1 ->
  lreach stepL stepR n true bl br l r s psi -> j + 1 = lR s -> shift stepL stepR s j false A = Err.
Proof.
  intros s psi j A H1 H2 H Hj. pose proof (reach_inv stepL stepR n true bl br l r (conj H1 H2) s psi H) as ((_ & Hop & _) & _ & HL & _).
  unfold shift. rewrite Hop. cbn [negb]. destruct (Z.eqb_spec (j + 1) (lL s)); [lia|]. reflexivity.
Qed.
(** reset() on an object projecting onto an MPS dereferences a null pointer. *)
Theorem C40_reset_mps_refuted : forall s psi, 0 <= l < r -> r <= n + 1 ->
  lreach stepL stepR n false bl br l r s psi -> reset s = UB.
Proof.
  intros s psi H1 H2 H. pose proof (reach_inv stepL stepR n false bl br l r (conj H1 H2) s psi H) as ((_ & Hop & _) & _).
  unfold reset. rewrite Hop. reflexivity.
Qed.
End C40.

Section C40_meaning.
Context {R : Type} (r0 r1 : R) (radd rmul rsub : R -> R -> R) (ropp : R -> R) (cj : R -> R).
Context (RT : ring_theory r0 r1 radd rmul rsub ropp eq).
Notation tensor := (@tensor R).
Notation wten := (wten R).
Notation sL := (stepL r0 radd rmul cj).
Notation sR := (stepR r0 radd rmul cj).

(** After every such history on an MPO without boundary tensors, in memory or on disk, product(phi)
    is the projection of the whole MPO: against every chi it gives the matrix element of the MPO
    between the states with chi and phi in place of the centre sites. *)
Theorem C40_projects : forall n (ws : Z -> wten) s psi b dl dw dv dr phi,
  (forall x y, cj (radd x y) = radd (cj x) (cj y)) -> (forall x y, cj (rmul x y) = rmul (cj x) (cj y)) -> cj r0 = r0 -> cj r1 = r1 ->
  1 <= n -> lreach (sL ws) (sR ws) n true None None 0 (n + 1) s psi ->
  position_of s = Ok b -> lnc s < n ->
  let c := Z.to_nat (lnc s) in let k := Z.to_nat (b - 1) in let m := Z.to_nat (n - (b - 1) - lnc s) in
  linked 1 (seg psi 1 k) dl -> linked dr (seg psi (b + lnc s) m) 1 ->
  wlinked 1 (seg ws 1 k) dw -> wlinked dw (seg ws b c) dv -> wlinked dv (seg ws (b + lnc s) m) 1 ->
  exists f, local_product r0 radd rmul (getL s) (getR s) (seg ws b c) dl dw dr phi = Ok f /\
    forall chi,
      bsum r0 radd dl (fun a => csum r0 radd (wsites (seg ws b c)) (fun cf => bsum r0 radd dr (fun e => rmul (cj (chi a cf e)) (f a cf e)))) =
      matrix_element r0 r1 radd rmul cj (seg psi 1 k) (seg psi (b + lnc s) m) (seg ws 1 k) (seg ws b c) (seg ws (b + lnc s) m) dl dr chi phi.
Proof.
  intros n ws s psi b dl dw dv dr phi Ca Cm C0 C1 Hn H Hp Hc c k m LL LR WL WM WR.
  pose proof (reach_inv (sL ws) (sR ws) n true None None 0 (n + 1) ltac:(lia) s psi H) as (_ & Hc2 & HL & HR & _).
  pose proof (C40_current (sL ws) (sR ws) n true None None 0 (n + 1) s psi ltac:(lia) ltac:(lia) H) as (_ & _ & GL & GR).
  unfold position_of in Hp. destruct (Z.eqb_spec (lR s - lL s) (lnc s + 1)) as [Ew|]; [|discriminate]. injection Hp as Hb.
  unfold envL in GL. replace (Z.to_nat (lL s - 0)) with k in GL by lia.
  unfold envR in GR. replace (Z.to_nat (n + 1 - lR s)) with m in GR by lia.
  assert (Ei : b + lnc s = n + 1 - Z.of_nat m) by lia.
  assert (Hs : forall x, k = S x -> getL s <> None) by (intros x Hx; rewrite GL, Hx; discriminate).
  assert (Hs' : forall x, m = S x -> getR s <> None) by (intros x Hx; rewrite GR, Hx; discriminate).
  destruct (local_ok r0 r1 radd rmul rsub ropp RT (getL s) (getR s) (seg ws b c) dl dw dv dr phi WM) as (f & Ef & Hf).
  - rewrite seg_len. lia.
  - intros K. destruct k as [|k']; [|exfalso; exact (Hs _ eq_refl K)]. cbn in LL, WL. auto.
  - intros K. destruct m as [|m']; [|exfalso; exact (Hs' _ eq_refl K)]. cbn in LR, WR. auto.
  - destruct k as [|k'] eqn:Ek; [|left; eapply Hs; reflexivity]. right. destruct m as [|m'] eqn:Em; [lia|]. eapply Hs'; reflexivity.
  - exists f. split; [exact Ef|]. intros chi.
    rewrite <- (projects r0 r1 radd rmul rsub ropp cj RT C0 Ca Cm (seg psi 1 k) (seg psi (b + lnc s) m) (seg ws 1 k) (seg ws b c) (seg ws (b + lnc s) m) dl dw dv dr chi phi WL WM) by (rewrite !seg_len; reflexivity).
    apply (bsum_ext r0 radd). intros a Ha. rewrite !(csum_lsum r0 r1 radd rmul rsub ropp RT). apply lsum_ext. intros cf Hcf.
    apply conf_len in Hcf. unfold wsites in Hcf. rewrite map_length in Hcf. apply (bsum_ext r0 radd). intros e He. f_equal.
    rewrite Hf by assumption. apply (effective_ext r0 r1 radd rmul rsub ropp RT); try assumption.
    + intros x w Hx Hw. rewrite GL. apply (env_left r0 r1 radd rmul rsub ropp cj RT C0 C1 Ca Cm ws psi k dl dw LL WL); assumption.
    + intros x v Hx Hv. rewrite GR. rewrite Ei in LR, WR |- *. apply (env_right r0 r1 radd rmul rsub ropp cj RT C0 C1 Ca Cm ws psi (n + 1) m dr dv LR WR); assumption.
Qed.

(** In particular, for phi the centre sites of psi, <phi|product(phi)> is <psi|H|psi>. *)
Theorem C40_energy : forall n (ws : Z -> wten) s psi b dl dw dv dr,
  (forall x y, cj (radd x y) = radd (cj x) (cj y)) -> (forall x y, cj (rmul x y) = rmul (cj x) (cj y)) -> cj r0 = r0 -> cj r1 = r1 ->
  1 <= n -> lreach (sL ws) (sR ws) n true None None 0 (n + 1) s psi ->
  position_of s = Ok b -> lnc s < n ->
  let c := Z.to_nat (lnc s) in let k := Z.to_nat (b - 1) in let m := Z.to_nat (n - (b - 1) - lnc s) in
  linked 1 (seg psi 1 k) dl -> linked dl (seg psi b c) dr -> linked dr (seg psi (b + lnc s) m) 1 ->
  wlinked 1 (seg ws 1 k) dw -> wlinked dw (seg ws b c) dv -> wlinked dv (seg ws (b + lnc s) m) 1 ->
  wsites (seg ws b c) = sites (seg psi b c) ->
  let phi := fun a cf e => chain r0 r1 radd rmul (seg psi b c) cf a e in
  exists f, local_product r0 radd rmul (getL s) (getR s) (seg ws b c) dl dw dr phi = Ok f /\
    bsum r0 radd dl (fun a => csum r0 radd (wsites (seg ws b c)) (fun cf => bsum r0 radd dr (fun e => rmul (cj (phi a cf e)) (f a cf e)))) =
    energy r0 r1 radd rmul cj (seg psi 1 (Z.to_nat n)) (seg ws 1 (Z.to_nat n)).
Proof.
  intros n ws s psi b dl dw dv dr Ca Cm C0 C1 Hn H Hp Hc c k m LL LM LR WL WM WR Hsites phi.
  pose proof (reach_inv (sL ws) (sR ws) n true None None 0 (n + 1) ltac:(lia) s psi H) as (_ & Hc2 & HL & HR & _).
  destruct (C40_projects n ws s psi b dl dw dv dr phi Ca Cm C0 C1 Hn H Hp Hc LL LR WL WM WR) as (f & Ef & Hf).
  exists f. split; [exact Ef|]. rewrite Hf. unfold phi. fold c k m.
  rewrite (energy_me r0 r1 radd rmul rsub ropp cj RT) by assumption.
  unfold position_of in Hp. destruct (Z.eqb_spec (lR s - lL s) (lnc s + 1)) as [Ew|]; [|discriminate]. injection Hp as Hb.
  replace (Z.to_nat n) with (k + (c + m))%nat by lia. rewrite !seg_app.
  replace (1 + Z.of_nat k) with b by lia. replace (b + Z.of_nat c) with (b + lnc s) by lia. reflexivity.
Qed.
End C40_meaning.

(** *** A chain of six sites, the edge tensors kept symbolic: the site and state tensor numbers that
    went into them. *)
Definition sym (j : Z) (e : option (list (Z * Z))) (t : Z) : list (Z * Z) := (j, t) :: match e with Some l => l | None => [] end.
Definition sympsi : Z -> Z := fun j => 10 * j.

Tactic Notation "after" uconstr(o) tactic(inner) := eapply (lr_step _ _ _ _ _ _ _ _ _ _ o); [inner|cbn; intuition lia|vm_compute; reflexivity].
Ltac start := apply lr_start with (psi := sympsi).
Example C40_nonvacuous :
  exists s psi, lreach sym sym 6 true None None 0 7 s psi /\ lwr s = true /\ psi 3 = 99 /\
    getL s = Some [(3, 99); (2, 20); (1, 10)] /\ getR s = Some [(6, 60)].
Proof.
  eexists. eexists. split.
  - after (Position 4) (after (Change 3 99) (after (Position 2) (after (Write) (after (Position 1) (start))))).
  - vm_compute. auto.
Qed.

(** A jump in write mode whose new left edge sits where the old right edge was (position(4) after
    position(1)) pages the new left edge out: L() is null afterwards although three sites lie
    to the left, and nothing fails. *)
Theorem C40_write_jump_refuted :
  exists s psi s', lreach sym sym 6 true None None 0 7 s psi /\ position sym sym psi s 4 = Ok s' /\
    position_of s' = Ok 4 /\ getL s' = None /\ envL sym None 0 psi (lL s') <> None.
Proof.
  eexists. eexists. eexists. split; [after (Write) (after (Position 1) (start))|].
  split; [vm_compute; reflexivity|]. split; [vm_compute; reflexivity|]. split; [vm_compute; reflexivity|]. vm_compute. discriminate.
Qed.
(** Changing psi outside the window is not noticed. *)
Theorem C40_stale_refuted :
  exists s psi, lreach sym sym 6 true None None 0 7 s psi /\ lL s = 3 /\
    getL s <> envL sym None 0 (fun j => if j =? 2 then 99 else psi j) 3 /\
    exists s', position sym sym (fun j => if j =? 2 then 99 else psi j) s 4 = Ok s' /\ getL s' = getL s.
Proof.
  eexists. eexists. split; [after (Position 4) (start)|]. split; [vm_compute; reflexivity|].
  split; [vm_compute; discriminate|]. eexists. split; [vm_compute; reflexivity|reflexivity].
Qed.
(** doWrite(false) does not read the paged-out tensors back: the next position silently starts
    from an empty edge. *)
Theorem C40_write_off_refuted :
  exists s psi s1 s2, lreach sym sym 6 true None None 0 7 s psi /\ lwr s = true /\ doWrite s false = Ok s1 /\
    position sym sym psi s1 3 = Ok s2 /\ getL s2 = None /\ envL sym None 0 psi (lL s2) = Some [(2, 20); (1, 10)].
Proof.
  eexists. eexists. eexists. eexists. split; [after (Position 4) (after (Position 2) (after (Write) (after (Position 1) (start))))|].
  split; [reflexivity|]. split; [vm_compute; reflexivity|]. split; [vm_compute; reflexivity|]. split; vm_compute; reflexivity.
Qed.
(** Boundary tensors given to the constructor are dropped in write mode. *)
Theorem C40_write_boundary_refuted :
  exists (s s1 s2 : lmpo (list (Z * Z))), s = make 6 true (Some [(0, 0)]) None 0 7 /\ doWrite s true = Ok s1 /\
    position sym sym sympsi s1 1 = Ok s2 /\ getL s = Some [(0, 0)] /\ lL s2 = lL s /\ getL s2 = None.
Proof.
  eexists. eexists. eexists. split; [reflexivity|]. split; [vm_compute; reflexivity|]. split; [vm_compute; reflexivity|]. split; [reflexivity|]. split; reflexivity.
Qed.
(** With only as many sites as centre sites, product is refused. *)
Theorem C40_short_refuted : forall (n : Z) psi s', 0 <= n <= 2 ->
  position sym sym psi (mkL n true (fun _ => None) 0 (n + 1) n false (fun _ => None)) 1 = Ok s' ->
  product_allowed s' = false.
Proof.
  intros n psi s' Hn H. assert (n = 0 \/ n = 1 \/ n = 2) as [-> | [-> | ->]] by lia; cbn in H; injection H as <-; reflexivity.
Qed.

(** The hypotheses of C40_projects and C40_energy met: three sites over the integers, a window
    [2,3) of one centre site. *)
Definition ext (p : nat) : @tensor Z := mkT 1 2 1 true (fun _ s _ => if Nat.eqb s p then 3 else 1).
Definition exw : wten Z := mkWt 1 2 1 (fun _ s s' _ => Z.of_nat (s + 2 * s')).
Example C40_nonvacuous_product :
  exists s f, lreach (stepL 0 Z.add Z.mul (fun x => x) (fun _ => exw)) (stepR 0 Z.add Z.mul (fun x => x) (fun _ => exw))
      3 true None None 0 4 s (fun j => ext (Z.to_nat j mod 2)) /\
    position_of s = Ok 2 /\ lnc s = 1 /\
    local_product 0 Z.add Z.mul (getL s) (getR s) [exw] 1 1 1 (fun _ c _ => if Nat.eqb (nth 0 c O) 0 then 3 else 1) = Ok f /\
    f O [1%nat] O = 36 * 9 * 36.
Proof.
  eexists. eexists. split.
  - after (Position 2) (after (Center 1) (apply lr_start)).
  - split; [reflexivity|]. split; [reflexivity|]. split; [reflexivity|]. vm_compute. reflexivity.
Qed.

Print Assumptions C40_current.
Print Assumptions C40_succeeds.
Print Assumptions C40_shift_fromright_refuted.
Print Assumptions C40_reset_mps_refuted.
Print Assumptions C40_projects.
Print Assumptions C40_energy.
Print Assumptions C40_write_jump_refuted.
Print Assumptions C40_stale_refuted.
Print Assumptions C40_write_off_refuted.
Print Assumptions C40_write_boundary_refuted.
Print Assumptions C40_short_refuted.
