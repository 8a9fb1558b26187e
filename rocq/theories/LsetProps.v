(** C62: the local operator of several MPOs is their sum, and with penalty states H + w sum |phi><phi|. *)
From Coq Require Import ZArith List Bool Arith Lia Ring.
From Verif Require Import Util BigSum MpsModel MpsTensor MpsSpec MpsProofs LocalModel LocalSpec LocalProofs LocalTensor LocalMeaning LocalSem LocalProps LsetSpec LsetModel LsetProofs.
Import ListNotations.
Local Open Scope outcome_scope.
Local Open Scope Z_scope.

Section C62.
Context {R : Type} (r0 r1 : R) (radd rmul rsub : R -> R -> R) (ropp : R -> R) (cj : R -> R).
Context (RT : ring_theory r0 r1 radd rmul rsub ropp eq).
Add Ring RRlsetp : RT.
Notation tensor := (@tensor R).
Notation wten := (wten R).
Notation sL := (stepL r0 radd rmul cj).
Notation sR := (stepR r0 radd rmul cj).
Notation oL := (ostepL r0 radd rmul cj).
Notation oR := (ostepR r0 radd rmul cj).
Notation inner := (inner r0 radd rmul cj).
Notation overlap := (overlap r0 r1 radd rmul cj).
Notation matrix_element := (matrix_element r0 r1 radd rmul cj).
Notation total := (total r0 radd).

(** Programs using one LocalMPOSet and one psi: every call is valid for every member. *)
Inductive set_reach (n nc : Z) (wss : list (Z -> wten)) : list (lmpo (@edge R)) -> (Z -> tensor) -> Prop :=
| sr_start ss psi : set_make n nc wss = Ok ss -> set_reach n nc wss ss psi
| sr_step ss psi o ss' : set_reach n nc wss ss psi -> o <> Reset ->
    (forall s, In s ss -> lvalid n true None None 0 (n + 1) s o) ->
    set_step r0 radd rmul cj wss ss psi o = Ok ss' ->
    set_reach n nc wss ss' (match o with Change j t => fun k => if k =? j then t else psi k | _ => psi end).
(** Programs using one LocalMPO_MPS, made without NumCenter, and one psi: position within the chain, changes
    of psi strictly between the limits of the MPO's part, doWrite(true). *)
Inductive pen_reach (n : Z) (ws : Z -> wten) (fss : list (Z -> tensor)) : @pens R -> (Z -> tensor) -> Prop :=
| pr_start s psi : pen_make n None fss = Ok s -> pen_reach n ws fss s psi
| pr_position s psi b s' : pen_reach n ws fss s psi -> lvalid n true None None 0 (n + 1) (ham s) (@Position tensor b) ->
    pen_position r0 radd rmul cj ws fss s psi b = Ok s' -> pen_reach n ws fss s' psi
| pr_change s psi j t : pen_reach n ws fss s psi -> lL (ham s) < j < lR (ham s) -> pen_reach n ws fss s (fun k => if k =? j then t else psi k)
| pr_write s psi s' : pen_reach n ws fss s psi -> pen_write s = Ok s' -> pen_reach n ws fss s' psi.

Lemma inner_add : forall dl mid dr chi f g, inner dl mid dr chi (fun a c e => radd (f a c e) (g a c e)) = radd (inner dl mid dr chi f) (inner dl mid dr chi g).
Proof.
  intros. unfold LsetSpec.inner. rewrite <- (bsum_add r0 r1 radd rmul rsub ropp RT). apply (bsum_ext r0 radd); intros a _.
  rewrite !(csum_lsum r0 r1 radd rmul rsub ropp RT). rewrite <- (lsum_add r0 r1 radd rmul rsub ropp RT). apply (lsum_ext r0 radd); intros c _.
  rewrite <- (bsum_add r0 r1 radd rmul rsub ropp RT). apply (bsum_ext r0 radd); intros e _. ring.
Qed.
Lemma inner_scale : forall dl mid dr chi f w, inner dl mid dr chi (fun a c e => rmul (f a c e) w) = rmul w (inner dl mid dr chi f).
Proof.
  intros. unfold LsetSpec.inner. rewrite !(bsum_lsum r0 r1 radd rmul rsub ropp RT). rewrite (lsum_mul_l r0 r1 radd rmul rsub ropp RT). apply (lsum_ext r0 radd); intros a _.
  rewrite !(csum_lsum r0 r1 radd rmul rsub ropp RT). rewrite (lsum_mul_l r0 r1 radd rmul rsub ropp RT). apply (lsum_ext r0 radd); intros c _.
  rewrite !(bsum_lsum r0 r1 radd rmul rsub ropp RT). rewrite (lsum_mul_l r0 r1 radd rmul rsub ropp RT). apply (lsum_ext r0 radd); intros e _. ring.
Qed.

(** * An MPS projector *)
(** After every history of a LocalMPO made from an MPS "fixed", product(phi), with 0, 1 or 2 centre sites,
    is |fixed><fixed| projected: against chi it gives <X|fixed><fixed|P>, X and P the states with chi and
    phi in place of the centre sites. *)
Theorem C62_projector : forall n (fixed : Z -> tensor) s psi b dl D E dr mid phi,
  (forall x y, cj (radd x y) = radd (cj x) (cj y)) -> (forall x y, cj (rmul x y) = rmul (cj x) (cj y)) -> cj r0 = r0 -> cj r1 = r1 ->
  1 <= n -> lreach (oL fixed) (oR fixed) n false None None 0 (n + 1) s psi -> position_of s = Ok b ->
  let c := Z.to_nat (lnc s) in let k := Z.to_nat (b - 1) in let m := Z.to_nat (n - (b - 1) - lnc s) in
  length mid = c -> linked 1 (seg psi 1 k) dl -> linked dr (seg psi (b + lnc s) m) 1 ->
  linked 1 (seg fixed 1 k) D -> linked D (seg fixed b c) E -> linked E (seg fixed (b + lnc s) m) 1 ->
  exists f, mps_product r0 radd rmul cj s fixed (lnc s) mid dl D dr phi = Ok f /\
    forall chi, inner dl mid dr chi f =
      rmul (cj (overlap (seg fixed 1 (Z.to_nat n)) (seg psi 1 k) (seg psi (b + lnc s) m) mid dl dr chi))
           (overlap (seg fixed 1 (Z.to_nat n)) (seg psi 1 k) (seg psi (b + lnc s) m) mid dl dr phi).
Proof.
  intros n F s psi b dl D E dr mid phi Ca Cm C0 C1 Hn H Hp c k m Lm LL LR FL FM FR.
  pose proof (reach_inv (oL F) (oR F) n false None None 0 (n + 1) ltac:(lia) s psi H) as (_ & Hc2 & HL & HR & _).
  pose proof (C40_current (oL F) (oR F) n false None None 0 (n + 1) s psi ltac:(lia) ltac:(lia) H) as (_ & _ & GL & GR).
  unfold mps_product. rewrite Hp. cbn [obind]. rewrite Z.eqb_refl. cbn [negb].
  unfold position_of in Hp. destruct (Z.eqb_spec (lR s - lL s) (lnc s + 1)) as [Ew|]; [|discriminate]. injection Hp as Hb.
  unfold envL in GL. replace (Z.to_nat (lL s - 0)) with k in GL by lia.
  unfold envR in GR. replace (Z.to_nat (n + 1 - lR s)) with m in GR by lia.
  assert (Ei : b + lnc s = n + 1 - Z.of_nat m) by lia.
  assert (Hs : forall x, k = S x -> getL s <> None) by (intros x Hx; rewrite GL, Hx; discriminate).
  assert (Hs' : forall x, m = S x -> getR s <> None) by (intros x Hx; rewrite GR, Hx; discriminate).
  destruct (other_ok r0 r1 radd rmul rsub ropp cj RT C0 C1 Ca Cm (getL s) (getR s) (seg F b c) D E) as (o & Eo & Ho).
  - rewrite seg_len. lia.
  - exact FM.
  - intros K. destruct k as [|k']; [|exfalso; exact (Hs _ eq_refl K)]. cbn in FL. auto.
  - intros K. destruct m as [|m']; [|exfalso; exact (Hs' _ eq_refl K)]. cbn in FR. auto.
  - intros K. destruct k as [|k'] eqn:Ek; [|left; eapply Hs; reflexivity]. right. destruct m as [|m'] eqn:Em; [|eapply Hs'; reflexivity].
    apply (f_equal (@length tensor)) in K. rewrite seg_len in K. cbn in K. lia.
  - fold c. rewrite Eo. cbn [obind]. eexists. split; [reflexivity|]. intros chi.
    set (kern := okernel r0 r1 radd rmul cj (oleft r0 r1 radd rmul cj (seg psi 1 k) (seg F 1 k)) (oright r0 r1 radd rmul cj (seg psi (b + lnc s) m) (seg F (b + lnc s) m)) (seg F b c) D E).
    assert (Ok' : forall a cf e, (a < dl)%nat -> In cf (confs mid) -> (e < dr)%nat -> o a cf e = kern a cf e).
    { intros a cf e Ha Hcf He. apply conf_len in Hcf. rewrite Ho by (rewrite seg_len; lia). unfold kern, okernel.
      apply (bsum_ext r0 radd); intros A HA. apply (bsum_ext r0 radd); intros B HB. rewrite GL, GR.
      rewrite (oenv_left r0 r1 radd rmul rsub ropp cj RT C0 C1 Ca Cm F psi k dl D LL FL) by assumption.
      rewrite Ei in LR, FR |- *. rewrite (oenv_right r0 r1 radd rmul rsub ropp cj RT C0 C1 Ca Cm F psi (n + 1) m dr E LR FR) by assumption. reflexivity. }
    assert (Ov : forall p, bsum r0 radd dl (fun a => csum r0 radd mid (fun cf => bsum r0 radd dr (fun e => rmul (o a cf e) (p a cf e)))) =
      overlap (seg F 1 (Z.to_nat n)) (seg psi 1 k) (seg psi (b + lnc s) m) mid dl dr p).
    { intros p. replace (Z.to_nat n) with (k + (c + m))%nat by lia. rewrite !seg_app. replace (1 + Z.of_nat k) with b by lia. replace (b + Z.of_nat c) with (b + lnc s) by lia.
      rewrite <- (kernel_overlap r0 r1 radd rmul rsub ropp cj RT C0 Ca Cm (seg psi 1 k) (seg psi (b + lnc s) m) (seg F 1 k) (seg F b c) (seg F (b + lnc s) m) mid dl dr D E p FL FM) by (rewrite ?seg_len; auto).
      apply (bsum_ext r0 radd); intros a Ha. rewrite !(csum_lsum r0 r1 radd rmul rsub ropp RT). apply (lsum_ext r0 radd); intros cf Hcf.
      apply (bsum_ext r0 radd); intros e He. rewrite Ok' by assumption. reflexivity. }
    rewrite <- !Ov. set (z := bsum r0 radd dl (fun a => csum r0 radd mid (fun cf => bsum r0 radd dr (fun e => rmul (o a cf e) (phi a cf e))))).
    rewrite inner_scale. transitivity (rmul z (cj (bsum r0 radd dl (fun a => csum r0 radd mid (fun cf => bsum r0 radd dr (fun e => rmul (o a cf e) (chi a cf e))))))); [|ring].
    f_equal. unfold LsetSpec.inner. rewrite !(bsum_lsum r0 r1 radd rmul rsub ropp RT). rewrite (lsum_conj r0 radd cj C0 Ca). apply (lsum_ext r0 radd); intros a _.
    rewrite !(csum_lsum r0 r1 radd rmul rsub ropp RT). rewrite (lsum_conj r0 radd cj C0 Ca). apply (lsum_ext r0 radd); intros cf _.
    rewrite !(bsum_lsum r0 r1 radd rmul rsub ropp RT). rewrite (lsum_conj r0 radd cj C0 Ca). apply (lsum_ext r0 radd); intros e _. rewrite Cm. ring.
Qed.

(** * LocalMPOSet *)
Lemma set_step_ok : forall n wss ss psi o, 1 <= n -> Forall2 (fun ws s => lreach (sL ws) (sR ws) n true None None 0 (n + 1) s psi) wss ss ->
  (forall s, In s ss -> lvalid n true None None 0 (n + 1) s o) ->
  exists ss', set_step r0 radd rmul cj wss ss psi o = Ok ss' /\
    Forall2 (fun ws s => lreach (sL ws) (sR ws) n true None None 0 (n + 1) s (changed psi o)) wss ss' /\
    map (fun s => window s) ss' = map (fun s => next_window n o (window s)) ss.
Proof.
  intros n wss ss psi o Hn F V. induction F as [|ws s wss ss H F IH]; [exists []; repeat split; constructor|].
  destruct IH as (ss' & E1 & F1 & W1); [intros x Hx; apply V; right; exact Hx|].
  assert (V0 : lvalid n true None None 0 (n + 1) s o) by (apply V; left; reflexivity).
  destruct (C40_succeeds (sL ws) (sR ws) n true None None 0 (n + 1) s psi o ltac:(lia) ltac:(lia) H V0) as (s1 & p1 & Es & _).
  exists (s1 :: ss'). cbn [set_step]. rewrite Es. cbn [obind]. rewrite E1. cbn [obind]. split; [reflexivity|]. split.
  - constructor; [|exact F1]. rewrite <- (lstep_psi _ _ _ _ _ _ _ Es). exact (lr_step _ _ _ _ _ _ _ _ _ _ _ _ _ H V0 Es).
  - cbn [map]. f_equal; [|exact W1]. exact (window_step _ _ _ _ _ _ _ _ _ Hn H V0 Es).
Qed.
Lemma set_reach_all : forall n nc wss ss psi, 1 <= n -> set_reach n nc wss ss psi ->
  Forall2 (fun ws s => lreach (sL ws) (sR ws) n true None None 0 (n + 1) s psi) wss ss /\ (forall s s', In s ss -> In s' ss -> window s = window s').
Proof.
  intros n nc wss ss psi Hn H. induction H as [ss psi H|ss psi o ss' H IH NR V E].
  - unfold set_make in H. destruct (Nat.eqb_spec (length wss) 0) as [E|E].
    + destruct wss; [|discriminate]. injection H as <-. split; [constructor|]. intros s s' [].
    + destruct (numCenter _ nc) as [s0| |] eqn:E0; cbn [obind] in H; try discriminate. injection H as <-. split.
      * assert (V : lvalid n true None None 0 (n + 1) (make n true None None 0 (n + 1) : lmpo (@edge R)) (@Center tensor nc)).
        { cbn. unfold numCenter in E0. destruct (_ || _) eqn:EE; [discriminate|]. apply orb_false_iff in EE. lia. }
        clear E. induction wss as [|ws wss IH]; cbn [map]; constructor; [|exact IH].
        eapply (lr_step _ _ _ _ _ _ _ _ _ _ (Center nc)); [apply lr_start|exact V|]. cbn [lstep]. rewrite E0. reflexivity.
      * intros s s' Hs Hs'. apply in_map_iff in Hs. apply in_map_iff in Hs'. destruct Hs as (? & <- & _). destruct Hs' as (? & <- & _). reflexivity.
  - destruct IH as (F & U). destruct (set_step_ok n wss ss psi o Hn F V) as (ss1 & E1 & F1 & W1). rewrite E in E1. injection E1 as <-.
    split; [exact F1|]. intros s s' Hs Hs'. apply (in_map (fun s => window s)) in Hs. apply (in_map (fun s => window s)) in Hs'. rewrite W1 in Hs, Hs'.
    apply in_map_iff in Hs. apply in_map_iff in Hs'. destruct Hs as (x & <- & Hx). destruct Hs' as (y & <- & Hy). f_equal. apply U; assumption.
Qed.
(** Every call that is valid for all members succeeds, and position(b) leaves them all at b. *)
Theorem C62_set_succeeds : forall n nc wss ss psi o, 1 <= n -> set_reach n nc wss ss psi ->
  (forall s, In s ss -> lvalid n true None None 0 (n + 1) s o) ->
  exists ss', set_step r0 radd rmul cj wss ss psi o = Ok ss' /\ length ss' = length wss /\
    match o with Position b => forall s, In s ss' -> position_of s = Ok b | _ => True end.
Proof.
  intros n nc wss ss psi o Hn H V. destruct (set_reach_all n nc wss ss psi Hn H) as (F & _).
  destruct (set_step_ok n wss ss psi o Hn F V) as (ss' & E & F' & W). exists ss'. split; [exact E|]. split; [clear - F'; induction F'; cbn; auto|].
  destruct o; try exact Logic.I. intros s Hs. apply (in_map (fun s => window s)) in Hs. rewrite W in Hs. apply in_map_iff in Hs. destruct Hs as (x & Ex & _).
  unfold window, next_window in Ex. injection Ex as E1 E2 E3. unfold position_of. rewrite <- E1, <- E2, <- E3.
  destruct (Z.eqb_spec (b + lnc x - (b - 1)) (lnc x + 1)); [f_equal; lia|lia].
Qed.
Lemma member_ok : forall n ws s psi b c dl dw dv dr phi,
  (forall x y, cj (radd x y) = radd (cj x) (cj y)) -> (forall x y, cj (rmul x y) = rmul (cj x) (cj y)) -> cj r0 = r0 -> cj r1 = r1 ->
  1 <= n -> lreach (sL ws) (sR ws) n true None None 0 (n + 1) s psi -> position_of s = Ok b -> lnc s = c -> c < n ->
  let k := Z.to_nat (b - 1) in let m := Z.to_nat (n - (b - 1) - c) in
  linked 1 (seg psi 1 k) dl -> linked dr (seg psi (b + c) m) 1 ->
  wlinked 1 (seg ws 1 k) dw -> wlinked dw (seg ws b (Z.to_nat c)) dv -> wlinked dv (seg ws (b + c) m) 1 ->
  exists f, member_product r0 radd rmul ws s dl dw dr phi = Ok f /\ forall chi,
    inner dl (wsites (seg ws b (Z.to_nat c))) dr chi f = matrix_element (seg psi 1 k) (seg psi (b + c) m) (seg ws 1 k) (seg ws b (Z.to_nat c)) (seg ws (b + c) m) dl dr chi phi.
Proof.
  intros n ws s psi b c dl dw dv dr phi Ca Cm C0 C1 Hn H Hp Ec Hc k m LL LR WL WM WR. subst c.
  destruct (C40_projects r0 r1 radd rmul rsub ropp cj RT n ws s psi b dl dw dv dr phi Ca Cm C0 C1 Hn H Hp Hc LL LR WL WM WR) as (f & Ef & Hf).
  exists f. split; [|exact Hf]. unfold member_product. rewrite Hp. exact Ef.
Qed.
(** Each MPO of the set is a chain: links 1 - dw - dv - 1, with centre sites of the dimensions mid. *)
Definition chains (n b c : Z) (mid : list nat) (ws : Z -> wten) (d : nat * nat) : Prop :=
  wlinked 1 (seg ws 1 (Z.to_nat (b - 1))) (fst d) /\ wlinked (fst d) (seg ws b (Z.to_nat c)) (snd d) /\
  wlinked (snd d) (seg ws (b + c) (Z.to_nat (n - (b - 1) - c))) 1 /\ wsites (seg ws b (Z.to_nat c)) = mid.
Lemma set_more_ok : forall n psi b c dl dr mid phi,
  (forall x y, cj (radd x y) = radd (cj x) (cj y)) -> (forall x y, cj (rmul x y) = rmul (cj x) (cj y)) -> cj r0 = r0 -> cj r1 = r1 -> 1 <= n -> c < n ->
  let k := Z.to_nat (b - 1) in let m := Z.to_nat (n - (b - 1) - c) in
  linked 1 (seg psi 1 k) dl -> linked dr (seg psi (b + c) m) 1 ->
  forall wss ss, Forall2 (fun ws s => lreach (sL ws) (sR ws) n true None None 0 (n + 1) s psi) wss ss ->
  (forall s, In s ss -> position_of s = Ok b /\ lnc s = c) ->
  forall ds, Forall2 (chains n b c mid) wss ds -> forall f, exists g, set_more r0 radd rmul wss ss (map fst ds) dl dr phi f = Ok g /\
  forall chi, inner dl mid dr chi g = radd (inner dl mid dr chi f) (total wss (fun ws =>
    matrix_element (seg psi 1 k) (seg psi (b + c) m) (seg ws 1 k) (seg ws b (Z.to_nat c)) (seg ws (b + c) m) dl dr chi phi)).
Proof.
  intros n psi b c dl dr mid phi Ca Cm C0 C1 Hn Hc k m LL LR wss ss F. induction F as [|ws s wss ss H F IH]; intros V ds FD f.
  - inversion FD; subst. exists f. split; [reflexivity|]. intros chi. cbn. ring.
  - inversion FD as [|? d ? ds' (W1 & W2 & W3 & W4) FD']; subst ds. cbn [map set_more].
    destruct (V s (or_introl eq_refl)) as (Hp & Ec).
    destruct (member_ok n ws s psi b c dl (fst d) (snd d) dr phi Ca Cm C0 C1 Hn H Hp Ec Hc LL LR W1 W2 W3) as (g & Eg & Hg). rewrite Eg. cbn [obind].
    destruct (IH (fun x Hx => V x (or_intror Hx)) ds' FD' (fun a cf e => radd (f a cf e) (g a cf e))) as (h & Eh & Hh). exists h. split; [exact Eh|].
    intros chi. rewrite Hh, inner_add. rewrite W4 in Hg. rewrite Hg. unfold LsetSpec.total. cbn [fold_right]. fold k m. ring.
Qed.
(** After every history of a LocalMPOSet, product(phi) is the sum over its MPOs: against every chi it gives
    the sum of the matrix elements of the whole MPOs. *)
Theorem C62_set : forall n nc wss ss psi b c dl dr mid ds phi,
  (forall x y, cj (radd x y) = radd (cj x) (cj y)) -> (forall x y, cj (rmul x y) = rmul (cj x) (cj y)) -> cj r0 = r0 -> cj r1 = r1 ->
  1 <= n -> wss <> [] -> set_reach n nc wss ss psi -> (forall s, In s ss -> position_of s = Ok b /\ lnc s = c) -> c < n ->
  let k := Z.to_nat (b - 1) in let m := Z.to_nat (n - (b - 1) - c) in
  linked 1 (seg psi 1 k) dl -> linked dr (seg psi (b + c) m) 1 -> Forall2 (chains n b c mid) wss ds ->
  exists f, set_product r0 radd rmul wss ss (map fst ds) dl dr phi = Ok f /\
    forall chi, inner dl mid dr chi f = total wss (fun ws =>
      matrix_element (seg psi 1 k) (seg psi (b + c) m) (seg ws 1 k) (seg ws b (Z.to_nat c)) (seg ws (b + c) m) dl dr chi phi).
Proof.
  intros n nc wss ss psi b c dl dr mid ds phi Ca Cm C0 C1 Hn NE RE V Hc k m LL LR FD. destruct (set_reach_all n nc wss ss psi Hn RE) as (F & _).
  destruct F as [|ws s wss ss H F]; [congruence|]. inversion FD as [|? d ? ds' (W1 & W2 & W3 & W4) FD']; subst ds. cbn [map set_product].
  destruct (V s (or_introl eq_refl)) as (Hp & Ec).
  destruct (member_ok n ws s psi b c dl (fst d) (snd d) dr phi Ca Cm C0 C1 Hn H Hp Ec Hc LL LR W1 W2 W3) as (g & Eg & Hg). rewrite Eg. cbn [obind].
  destruct (set_more_ok n psi b c dl dr mid phi Ca Cm C0 C1 Hn Hc LL LR wss ss F (fun x Hx => V x (or_intror Hx)) ds' FD' g) as (h & Eh & Hh). exists h. split; [exact Eh|].
  intros chi. rewrite Hh. rewrite W4 in Hg. rewrite Hg. reflexivity.
Qed.
(** expect of a set of size members is size times the sum of their expectations: the loop over the members is
    nested in itself. *)
Theorem C62_expect_repeats : forall (re : R -> R) mid dl dr phi (l : list ((Z -> wten) * lmpo (@edge R) * nat * R)),
  Forall (fun '(ws, s, dw, x) => member_expect r0 radd rmul cj re mid ws s dl dw dr phi = Ok x) l ->
  set_expect r0 radd rmul cj re mid (map (fun q => fst (fst (fst q))) l) (map (fun q => snd (fst (fst q))) l) (map (fun q => snd (fst q)) l) dl dr phi =
  Ok (total (repeat (total l snd) (length l)) (fun x => x)).
Proof.
  intros re mid dl dr phi l F.
  assert (IN : forall ex, expect_loop r0 radd rmul cj re mid (map (fun q => fst (fst (fst q))) l) (map (fun q => snd (fst (fst q))) l) (map (fun q => snd (fst q)) l) dl dr phi ex = Ok (radd ex (total l snd))).
  { induction F as [|[[[ws s] dw] x] l H F IH]; intros ex; cbn [map expect_loop fst snd].
    - unfold LsetSpec.total. cbn. f_equal. ring.
    - rewrite H. cbn [obind]. rewrite IH. unfold LsetSpec.total. cbn [fold_right snd]. f_equal. ring. }
  assert (OUT : forall times ex, expect_outer r0 radd rmul cj re times mid (map (fun q => fst (fst (fst q))) l) (map (fun q => snd (fst (fst q))) l) (map (fun q => snd (fst q)) l) dl dr phi ex =
    Ok (radd ex (total (repeat (total l snd) times) (fun x => x)))).
  { induction times as [|t IH]; intros ex; cbn [expect_outer repeat].
    - unfold LsetSpec.total. cbn. f_equal. ring.
    - rewrite IN. cbn [obind]. rewrite IH. change (total (total l snd :: repeat (total l snd) t) (fun x => x)) with (radd (total l snd) (total (repeat (total l snd) t) (fun x => x))). f_equal. ring. }
  unfold set_expect. rewrite map_length. rewrite OUT. f_equal. ring.
Qed.

(** * LocalMPO_MPS *)
Lemma pens_position_ok : forall n fss ms psi b w, 1 <= n -> Forall2 (fun F m => lreach (oL F) (oR F) n false None None 0 (n + 1) m psi) fss ms ->
  (forall m, In m ms -> window m = w /\ lwr m = false) -> 0 <= b - 1 -> b + snd w <= n + 1 ->
  exists ms', pens_position r0 radd rmul cj fss ms psi b = Ok ms' /\
    Forall2 (fun F m => lreach (oL F) (oR F) n false None None 0 (n + 1) m psi) fss ms' /\
    (forall m, In m ms' -> window m = next_window n (@Position tensor b) w /\ lwr m = false).
Proof.
  intros n fss ms psi b w Hn F V B1 B2. induction F as [|fs s fss ms H F IH]; [exists []; repeat split; try constructor; contradiction|].
  destruct IH as (ms' & E1 & F1 & W1); [intros x Hx; apply V; right; exact Hx|]. destruct (V s (or_introl eq_refl)) as (Ew & Wr).
  assert (V0 : lvalid n false None None 0 (n + 1) s (@Position tensor b)). { cbn. rewrite Wr. subst w. cbn in B2. split; [lia|]. split; [lia|discriminate]. }
  destruct (C40_succeeds (oL fs) (oR fs) n false None None 0 (n + 1) s psi (Position b) ltac:(lia) ltac:(lia) H V0) as (s1 & p1 & Es & _).
  pose proof Es as Es'. cbn [lstep] in Es'. destruct (position _ _ _ _ _) as [s2| |] eqn:Ep; cbn [obind] in Es'; try discriminate. injection Es' as -> <-.
  exists (s1 :: ms'). cbn [pens_position]. rewrite Ep. cbn [obind]. rewrite E1. cbn [obind]. split; [reflexivity|]. split.
  - constructor; [|exact F1]. exact (lr_step _ _ _ _ _ _ _ _ _ _ _ _ _ H V0 Es).
  - intros x [<-|Hx]; [|apply W1; exact Hx]. split; [rewrite <- Ew; exact (window_step _ _ _ _ _ _ _ _ _ Hn H V0 Es)|].
    rewrite <- Wr. exact (position_wr _ _ _ _ _ _ Ep).
Qed.
Lemma pen_reach_all : forall n ws fss s psi, 1 <= n -> pen_reach n ws fss s psi ->
  lreach (sL ws) (sR ws) n true None None 0 (n + 1) (ham s) psi /\ lnc (ham s) = 2 /\
  Forall2 (fun F m => lreach (oL F) (oR F) n false None None 0 (n + 1) m psi) fss (pen s) /\ (forall m, In m (pen s) -> window m = window (ham s) /\ lwr m = false).
Proof.
  intros n ws fss s psi Hn H. induction H as [s psi H|s psi b s' H IH V E|s psi j t H IH V|s psi s' H IH E].
  - unfold pen_make in H. injection H as <-. cbn [ham pen]. split; [apply lr_start|]. split; [reflexivity|]. split.
    + induction fss as [|f fss IH]; cbn [map]; constructor; [apply lr_start|exact IH].
    + intros m Hm. apply in_map_iff in Hm. destruct Hm as (? & <- & _). split; reflexivity.
  - destruct IH as (RH & C2 & F & W). unfold pen_position in E. destruct (position _ _ _ (ham s) b) as [h| |] eqn:Eh; cbn [obind] in E; try discriminate.
    assert (Es : lstep (sL ws) (sR ws) (ham s) psi (Position b) = Ok (h, psi)) by (cbn [lstep]; rewrite Eh; reflexivity).
    destruct (pens_position_ok n fss (pen s) psi b (window (ham s)) Hn F W) as (ms & Em & Fm & Wm); [cbn in V; lia|cbn in V |- *; lia|].
    rewrite Em in E. cbn [obind] in E. injection E as <-. cbn [ham pen]. split; [exact (lr_step _ _ _ _ _ _ _ _ _ _ _ _ _ RH V Es)|].
    split; [rewrite (position_nc _ _ _ _ _ _ Eh); exact C2|]. split; [exact Fm|]. rewrite (window_step _ _ _ _ _ _ _ _ _ Hn RH V Es). exact Wm.
  - destruct IH as (RH & C2 & F & W). split; [exact (lr_step _ _ _ _ _ _ _ _ _ _ (Change j t) _ _ RH V eq_refl)|]. split; [exact C2|]. split; [|exact W].
    clear - F V W. induction F as [|f m fss ms H F IH]; constructor.
    + eapply (lr_step _ _ _ _ _ _ _ _ _ _ (Change j t)); [exact H| |reflexivity]. destruct (W m (or_introl eq_refl)) as (Ew & _). unfold window in Ew. injection Ew as E1 E2 E3. cbn. rewrite E1, E2. exact V.
    + apply IH. intros x Hx. apply W. right. exact Hx.
  - destruct IH as (RH & C2 & F & W). unfold pen_write in E. destruct (doWrite (ham s) true) as [h| |] eqn:Eh; cbn [obind] in E; try discriminate. injection E as <-. cbn [ham pen].
    assert (Es : lstep (sL ws) (sR ws) (ham s) psi Write = Ok (h, psi)) by (cbn [lstep]; rewrite Eh; reflexivity).
    assert (V : lvalid n true None None 0 (n + 1) (ham s) (@Write tensor)) by (cbn; tauto).
    split; [exact (lr_step _ _ _ _ _ _ _ _ _ _ _ _ _ RH V Es)|]. pose proof (window_step _ _ _ _ _ _ _ _ _ Hn RH V Es) as Ew. change (next_window n (@Write tensor) (window (ham s))) with (window (ham s)) in Ew.
    split; [unfold window in Ew; congruence|]. split; [exact F|]. rewrite Ew. exact W.
Qed.
Definition fixed_chain (n b : Z) (F : Z -> tensor) (d : nat * nat) : Prop :=
  linked 1 (seg F 1 (Z.to_nat (b - 1))) (fst d) /\ linked (fst d) (seg F b 2) (snd d) /\ linked (snd d) (seg F (b + 2) (Z.to_nat (n - (b - 1) - 2))) 1.
(** position(b) on a LocalMPO_MPS succeeds for every b with two sites in the chain, in memory. *)
Theorem C62_penalty_succeeds : forall n ws fss s psi b, 1 <= n -> pen_reach n ws fss s psi ->
  lvalid n true None None 0 (n + 1) (ham s) (@Position tensor b) ->
  exists s', pen_position r0 radd rmul cj ws fss s psi b = Ok s' /\ position_of (ham s') = Ok b /\ lnc (ham s') = 2 /\
    (forall m, In m (pen s') -> position_of m = Ok b).
Proof.
  intros n ws fss s psi b Hn H V. destruct (pen_reach_all n ws fss s psi Hn H) as (RH & C2 & F & W).
  destruct (C40_succeeds (sL ws) (sR ws) n true None None 0 (n + 1) (ham s) psi (Position b) ltac:(lia) ltac:(lia) RH V) as (h & p1 & Es & P1 & P2).
  pose proof Es as Es'. cbn [lstep] in Es'. destruct (position _ _ _ (ham s) b) as [h2| |] eqn:Ep; cbn [obind] in Es'; try discriminate. injection Es' as -> <-.
  destruct (pens_position_ok n fss (pen s) psi b (window (ham s)) Hn F W) as (ms & Em & Fm & Wm); [cbn in V; lia|cbn in V |- *; lia|].
  exists (mkPens h ms). unfold pen_position. rewrite Ep. cbn [obind]. rewrite Em. cbn [obind ham pen]. split; [reflexivity|]. split; [exact P1|].
  split; [rewrite (position_nc _ _ _ _ _ _ Ep); exact C2|]. intros m Hm. destruct (Wm m Hm) as (Ew & _). unfold window, next_window in Ew. injection Ew as E1 E2 E3.
  unfold position_of. rewrite E1, E2, E3. destruct (Z.eqb_spec (b + lnc (ham s) - (b - 1)) (lnc (ham s) + 1)); [f_equal; lia|lia].
Qed.
(** After every history of a LocalMPO_MPS, product(phi) is that of H + weight * sum |fixed><fixed|. *)
Theorem C62_penalty : forall n ws fss s psi b dl dr d mid ds weight phi,
  (forall x y, cj (radd x y) = radd (cj x) (cj y)) -> (forall x y, cj (rmul x y) = rmul (cj x) (cj y)) -> cj r0 = r0 -> cj r1 = r1 ->
  2 < n -> pen_reach n ws fss s psi -> position_of (ham s) = Ok b ->
  let k := Z.to_nat (b - 1) in let m := Z.to_nat (n - (b - 1) - 2) in
  linked 1 (seg psi 1 k) dl -> linked dr (seg psi (b + 2) m) 1 -> chains n b 2 mid ws d -> Forall2 (fixed_chain n b) fss ds ->
  exists f, pen_product r0 radd rmul cj weight ws fss s mid dl (fst d) dr phi = Ok f /\
    forall chi, inner dl mid dr chi f =
      radd (matrix_element (seg psi 1 k) (seg psi (b + 2) m) (seg ws 1 k) (seg ws b 2) (seg ws (b + 2) m) dl dr chi phi)
           (rmul weight (total fss (fun F =>
              rmul (cj (overlap (seg F 1 (Z.to_nat n)) (seg psi 1 k) (seg psi (b + 2) m) mid dl dr chi))
                   (overlap (seg F 1 (Z.to_nat n)) (seg psi 1 k) (seg psi (b + 2) m) mid dl dr phi)))).
Proof.
  intros n ws fss s psi b dl dr d mid ds weight phi Ca Cm C0 C1 Hn RE Hp k m LL LR (W1 & W2 & W3 & W4) FD.
  destruct (pen_reach_all n ws fss s psi ltac:(lia) RE) as (RH & C2 & F & W).
  destruct (member_ok n ws (ham s) psi b 2 dl (fst d) (snd d) dr phi Ca Cm C0 C1 ltac:(lia) RH Hp C2 ltac:(lia) LL LR W1 W2 W3) as (f & Ef & Hf).
  rewrite W4 in Hf. unfold pen_product. rewrite Ef. cbn [obind]. rewrite C2.
  assert (Lm : length mid = 2%nat) by (rewrite <- W4; unfold wsites; rewrite map_length, seg_len; reflexivity).
  assert (MORE : forall f, exists g, pen_more r0 radd rmul cj weight fss (pen s) 2 mid dl dr phi f = Ok g /\ forall chi, inner dl mid dr chi g =
    radd (inner dl mid dr chi f) (rmul weight (total fss (fun F =>
              rmul (cj (overlap (seg F 1 (Z.to_nat n)) (seg psi 1 k) (seg psi (b + 2) m) mid dl dr chi))
                   (overlap (seg F 1 (Z.to_nat n)) (seg psi 1 k) (seg psi (b + 2) m) mid dl dr phi))))).
  { clear Ef Hf f. revert ds FD. clear RE. set (h := ham s) in *. clearbody h. induction F as [|fs x fss ms H F IH]; intros ds FD f.
    - exists f. split; [reflexivity|]. intros chi. unfold LsetSpec.total. cbn [fold_right]. ring.
    - inversion FD as [|? e ? ds' (F1 & F2 & F3) FD']; subst ds. destruct (W x (or_introl eq_refl)) as (Ew & _). unfold window in Ew. injection Ew as E1 E2 E3.
      assert (Hpx : position_of x = Ok b) by (unfold position_of in *; rewrite E1, E2, E3; exact Hp).
      assert (C2x : lnc x = 2) by congruence.
      destruct (C62_projector n fs x psi b dl (fst e) (snd e) dr mid phi Ca Cm C0 C1 ltac:(lia) H Hpx) as (g & Eg & Hg); rewrite ?C2x; try assumption.
      rewrite C2x in Eg, Hg. cbn [pen_more].
      assert (Eg' : mps_product r0 radd rmul cj x fs 2 mid dl 1 dr phi = Ok g).
      { rewrite <- Eg. unfold mps_product. rewrite Hpx, C2x. reflexivity. }
      rewrite Eg'. cbn [obind]. destruct (IH (fun y Hy => W y (or_intror Hy)) ds' FD' (fun a c e0 => radd (f a c e0) (rmul (g a c e0) weight))) as (g2 & Eg2 & Hg2).
      exists g2. split; [exact Eg2|]. intros chi. rewrite Hg2, inner_add, inner_scale, Hg. unfold LsetSpec.total. cbn [fold_right]. fold k m. ring. }
  destruct (MORE f) as (g & Eg & Hg). exists g. split; [exact Eg|]. intros chi. rewrite Hg, Hf. reflexivity.
Qed.
(** With NumCenter other than 2 in the args, and at least one state to be orthogonal to, product never works:
    the args reach the penalty states only. *)
Theorem C62_numcenter_refuted : forall n v ws F fss s0 bs weight mid dl dw dr phi f, v <> 2 ->
  pen_make n (Some v) (F :: fss) = Ok s0 ->
  forall s, fold_left (fun o '(psi, b) => let! s := o in pen_position r0 radd rmul cj ws (F :: fss) s psi b) bs (Ok s0) = Ok s ->
  pen_product r0 radd rmul cj weight ws (F :: fss) s mid dl dw dr phi <> Ok f.
Proof.
  intros n v ws F fss s0 bs weight mid dl dw dr phi f Hv H0.
  assert (P0 : lnc (ham s0) = 2 /\ match pen s0 with m :: _ => lnc m = v | [] => False end).
  { unfold pen_make in H0. destruct (numCenter _ v) as [x| |] eqn:E; cbn [obind] in H0; try discriminate. injection H0 as <-. cbn. split; [reflexivity|].
    unfold numCenter in E. destruct (_ || _); [discriminate|]. injection E as <-. reflexivity. }
  clear H0. revert s0 P0. induction bs as [|[psi b] bs IH]; intros s0 P0 s Hs.
  - injection Hs as <-. destruct P0 as (C2 & Cv). unfold pen_product. destruct (member_product _ _ _ _ _ _ _ _ _); cbn [obind]; try discriminate.
    destruct (pen s0) as [|x ms]; [contradiction|]. cbn [pen_more]. unfold mps_product. destruct (position_of x); cbn [obind]; try discriminate.
    rewrite C2, Cv. destruct (Z.eqb_spec v 2); [contradiction|]. discriminate.
  - cbn [fold_left obind] in Hs. destruct (pen_position _ _ _ _ _ _ s0 psi b) as [s1| |] eqn:E.
    + apply (IH s1); [|exact Hs]. unfold pen_position in E. destruct (position _ _ _ (ham s0) b) as [h| |] eqn:Eh; cbn [obind] in E; try discriminate.
      destruct P0 as (C2 & Cv). destruct (pen s0) as [|x ms]; [contradiction|]. cbn [pens_position] in E. destruct (position _ _ _ x b) as [x1| |] eqn:Ex; cbn [obind] in E; try discriminate.
      destruct (pens_position _ _ _ _ fss ms psi b); cbn [obind] in E; try discriminate. injection E as <-. cbn [ham pen].
      rewrite (position_nc _ _ _ _ _ _ Eh), (position_nc _ _ _ _ _ _ Ex). auto.
    + exfalso. clear - Hs. induction bs as [|[p b'] bs IH]; cbn in Hs; [discriminate|auto].
    + exfalso. clear - Hs. induction bs as [|[p b'] bs IH]; cbn in Hs; [discriminate|auto].
Qed.
(** product of an empty set reads the front of an empty vector. *)
Theorem C62_empty_refuted : forall n nc psi ss dl dr dws phi, 1 <= n -> set_reach n nc [] ss psi -> ss = [] /\ set_product r0 radd rmul [] ss dws dl dr phi = UB.
Proof. intros n nc psi ss dl dr dws phi Hn H. destruct (set_reach_all n nc [] ss psi Hn H) as (F & _). inversion F. split; reflexivity. Qed.
End C62.

(** *** Four sites over the integers. *)
Definition exid : wten Z := mkWt 1 2 1 (fun _ s s' _ => if Nat.eqb s s' then 1 else 0).
Definition expsi : Z -> @tensor Z := fun j => ext (Z.to_nat j mod 2).
Definition ztimes (ws : Z -> wten Z) := stepL 0 Z.add Z.mul (fun x => x) ws.
Definition exphi : nat -> list nat -> nat -> Z := fun _ c _ => Z.of_nat (1 + 2 * nth 0 c 0%nat + 5 * nth 1 c 0%nat).
Definition two : list (Z -> wten Z) := [fun _ => exw; fun _ => exid].
Definition at_window (l r c : Z) (s : lmpo (@edge Z)) : bool := (lL s =? l) && (lR s =? r) && (lnc s =? c) && negb (lwr s).
Lemma windows : forall l r c ss, forallb (at_window l r c) ss = true -> forall s, In s ss -> lL s = l /\ lR s = r /\ lnc s = c /\ lwr s = false.
Proof.
  intros l r c ss H s Hs. rewrite forallb_forall in H. apply H in Hs. unfold at_window in Hs. rewrite !andb_true_iff, negb_true_iff, !Z.eqb_eq in Hs. tauto.
Qed.
Ltac each l r c := let s := fresh "s" in let H := fresh "H" in intros s H; apply (windows l r c) in H; [|vm_compute; reflexivity];
  destruct H as (Hl & Hr & Hc & Hw); unfold lvalid, position_of; rewrite ?Hl, ?Hr, ?Hc, ?Hw; cbn; intuition (lia || discriminate).
Definition got {A} (d : A) (o : outcome A) : A := match o with Ok x => x | _ => d end.
Lemma got_ok : forall {A} (d : A) o, (match o with Ok _ => true | _ => false end) = true -> o = Ok (got d o).
Proof. intros A d [x| |] H; [reflexivity|discriminate|discriminate]. Qed.
Notation zset := (set_step 0 Z.add Z.mul (fun x => x) two).
Definition exs0 := got [] (set_make 4 2 two).
Definition exs1 := got [] (zset exs0 expsi (Position 1)).
Definition exs2 := got [] (zset exs1 expsi (Change 2 (ext 0))).
Definition expsi2 : Z -> @tensor Z := fun k => if k =? 2 then ext 0 else expsi k.
Definition exs3 := got [] (zset exs2 expsi2 (Position 2)).
Lemma exs3_reach : set_reach 0 Z.add Z.mul (fun x => x) 4 2 two exs3 expsi2.
Proof.
  apply (sr_step 0 Z.add Z.mul (fun x => x) 4 2 two exs2 expsi2 (Position 2) exs3); [|discriminate|each 0 3 2|apply got_ok; vm_compute; reflexivity].
  apply (sr_step 0 Z.add Z.mul (fun x => x) 4 2 two exs1 expsi (Change 2 (ext 0)) exs2); [|discriminate|each 0 3 2|apply got_ok; vm_compute; reflexivity].
  apply (sr_step 0 Z.add Z.mul (fun x => x) 4 2 two exs0 expsi (Position 1) exs1); [|discriminate|each 0 5 2|apply got_ok; vm_compute; reflexivity].
  apply sr_start. reflexivity.
Qed.
Example C62_nonvacuous_set :
  exists ss psi f, set_reach 0 Z.add Z.mul (fun x => x) 4 2 two ss psi /\ (forall s, In s ss -> position_of s = Ok 2 /\ lnc s = 2) /\
    Forall2 (chains 4 2 2 [2; 2]%nat) two [(1, 1); (1, 1)]%nat /\
    set_product 0 Z.add Z.mul two ss [1; 1]%nat 1 1 exphi = Ok f /\
    inner 0 Z.add Z.mul (fun x => x) 1 [2; 2]%nat 1 exphi f =
      matrix_element 0 1 Z.add Z.mul (fun x => x) [psi 1] [psi 4] [exw] [exw; exw] [exw] 1 1 exphi exphi +
      matrix_element 0 1 Z.add Z.mul (fun x => x) [psi 1] [psi 4] [exid] [exid; exid] [exid] 1 1 exphi exphi.
Proof.
  exists exs3, expsi2, (got (fun _ _ _ => 0) (set_product 0 Z.add Z.mul two exs3 [1; 1]%nat 1 1 exphi)). split; [exact exs3_reach|].
  split; [each 1 4 2|]. split; [repeat constructor|]. split; [apply got_ok; vm_compute; reflexivity|]. vm_compute. reflexivity.
Qed.
Definition exdef : lmpo (@edge Z) := make 4 true None None 0 5.
Lemma pair_of : forall {A} (d : A) l, length l = 2%nat -> l = [nth 0 l d; nth 1 l d].
Proof. intros A d [|x [|y [|z l]]] H; try discriminate. reflexivity. Qed.
(** expect of a set of two MPOs is not the sum of their expectations. *)
Theorem C62_expect_refuted :
  exists ss psi x y z, set_reach 0 Z.add Z.mul (fun x => x) 4 2 two ss psi /\
    (exists s1 s2, ss = [s1; s2] /\
     member_expect 0 Z.add Z.mul (fun x => x) (fun x => x) [2; 2]%nat (fun _ => exw) s1 1 1 1 exphi = Ok x /\
     member_expect 0 Z.add Z.mul (fun x => x) (fun x => x) [2; 2]%nat (fun _ => exid) s2 1 1 1 exphi = Ok y) /\
    set_expect 0 Z.add Z.mul (fun x => x) (fun x => x) [2; 2]%nat two ss [1; 1]%nat 1 1 exphi = Ok z /\ z <> x + y /\ z = 2 * (x + y).
Proof.
  exists exs3, expsi2, (got 0 (member_expect 0 Z.add Z.mul (fun x => x) (fun x => x) [2; 2]%nat (fun _ => exw) (nth 0 exs3 exdef) 1 1 1 exphi)),
    (got 0 (member_expect 0 Z.add Z.mul (fun x => x) (fun x => x) [2; 2]%nat (fun _ => exid) (nth 1 exs3 exdef) 1 1 1 exphi)),
    (got 0 (set_expect 0 Z.add Z.mul (fun x => x) (fun x => x) [2; 2]%nat two exs3 [1; 1]%nat 1 1 exphi)).
  split; [exact exs3_reach|]. split.
  - exists (nth 0 exs3 exdef), (nth 1 exs3 exdef). split; [apply pair_of; vm_compute; reflexivity|]. split; apply got_ok; vm_compute; reflexivity.
  - split; [apply got_ok; vm_compute; reflexivity|]. split; vm_compute; congruence.
Qed.
Definition exh0 := got (mkPens (make 4 true None None 0 5) []) (pen_make 4 None [expsi]).
Definition exh1 := got exh0 (pen_write exh0).
Definition exh2 := got exh0 (pen_position 0 Z.add Z.mul (fun x => x) (fun _ => exid) [expsi] exh1 expsi 2).
Lemma exh2_reach : pen_reach 0 Z.add Z.mul (fun x => x) 4 (fun _ => exid) [expsi] exh2 expsi.
Proof.
  apply (pr_position 0 Z.add Z.mul (fun x => x) 4 (fun _ => exid) [expsi] exh1 expsi 2 exh2); [|cbn; intuition lia|apply got_ok; vm_compute; reflexivity].
  apply (pr_write 0 Z.add Z.mul (fun x => x) 4 (fun _ => exid) [expsi] exh0 expsi exh1); [|apply got_ok; vm_compute; reflexivity]. apply pr_start. reflexivity.
Qed.
(** A LocalMPO_MPS with one state: its product is H + 7|fixed><fixed|, and its expect leaves the penalty out. *)
Theorem C62_penalty_expect_refuted :
  exists s f, pen_reach 0 Z.add Z.mul (fun x => x) 4 (fun _ => exid) [expsi] s expsi /\ position_of (ham s) = Ok 2 /\
    pen_product 0 Z.add Z.mul (fun x => x) 7 (fun _ => exid) [expsi] s [2; 2]%nat 1 1 1 exphi = Ok f /\
    exists x, pen_expect 0 Z.add Z.mul (fun x => x) (fun x => x) (fun _ => exid) s [2; 2]%nat 1 1 1 exphi = Ok x /\
      inner 0 Z.add Z.mul (fun x => x) 1 [2; 2]%nat 1 exphi f <> x.
Proof.
  exists exh2, (got (fun _ _ _ => 0) (pen_product 0 Z.add Z.mul (fun x => x) 7 (fun _ => exid) [expsi] exh2 [2; 2]%nat 1 1 1 exphi)). split; [exact exh2_reach|]. split; [vm_compute; reflexivity|]. split; [apply got_ok; vm_compute; reflexivity|]. eexists. split; [vm_compute; reflexivity|]. vm_compute. discriminate.
Qed.
Example C62_nonvacuous_penalty :
  exists s f, pen_reach 0 Z.add Z.mul (fun x => x) 4 (fun _ => exid) [expsi] s expsi /\ position_of (ham s) = Ok 2 /\
    Forall2 (fixed_chain 4 2) [expsi] [(1, 1)]%nat /\ chains 4 2 2 [2; 2]%nat (fun _ => exid) (1, 1)%nat /\
    pen_product 0 Z.add Z.mul (fun x => x) 7 (fun _ => exid) [expsi] s [2; 2]%nat 1 1 1 exphi = Ok f /\
    let ov := overlap 0 1 Z.add Z.mul (fun x => x) (seg expsi 1 4) [expsi 1] [expsi 4] [2; 2]%nat 1 1 exphi in
    inner 0 Z.add Z.mul (fun x => x) 1 [2; 2]%nat 1 exphi f =
      matrix_element 0 1 Z.add Z.mul (fun x => x) [expsi 1] [expsi 4] [exid] [exid; exid] [exid] 1 1 exphi exphi + 7 * (ov * ov) /\ ov <> 0.
Proof.
  exists exh2, (got (fun _ _ _ => 0) (pen_product 0 Z.add Z.mul (fun x => x) 7 (fun _ => exid) [expsi] exh2 [2; 2]%nat 1 1 1 exphi)). split; [exact exh2_reach|]. split; [vm_compute; reflexivity|]. split; [repeat constructor|]. split; [repeat constructor|]. split; [apply got_ok; vm_compute; reflexivity|]. vm_compute. split; [reflexivity|discriminate].
Qed.

Print Assumptions C62_projector.
Print Assumptions C62_set_succeeds.
Print Assumptions C62_set.
Print Assumptions C62_expect_repeats.
Print Assumptions C62_penalty_succeeds.
Print Assumptions C62_penalty.
Print Assumptions C62_numcenter_refuted.
Print Assumptions C62_empty_refuted.
Print Assumptions C62_expect_refuted.
Print Assumptions C62_penalty_expect_refuted.
