(** Proofs for C62. *)
From Coq Require Import ZArith List Bool Arith Lia Ring.
From Verif Require Import Util BigSum MpsModel MpsTensor MpsSpec MpsProofs LocalModel LocalSpec LocalProofs LocalTensor LocalMeaning LocalSem LsetSpec LsetModel.
Import ListNotations.
Local Open Scope outcome_scope.

(** * The windows of LocalMPOs with the same history *)
Section Windows.
Context {E T : Type} (stepL stepR : Z -> option E -> T -> E).
Notation lmpo := (lmpo E).
Definition window (s : lmpo) : Z * Z * Z := (lL s, lR s, lnc s).
Definition next_window (n : Z) (o : lact T) (w : Z * Z * Z) : Z * Z * Z :=
  let '(l, r, c) := w in
  match o with
  | Position b => (b - 1, b + c, c) | Center v => (l, r, v) | Change _ _ => w | Shift j => (j, j + 1 + c, c) | Reset => (0, n + 1, c) | Write => w
  end%Z.
Lemma page_out_nc : forall (s s' : lmpo) k v, page_out s k v = Ok s' -> lnc s' = lnc s.
Proof. intros s s' k v H. unfold page_out in H. destruct (k =? v)%Z; [congruence|]. destruct (at_ok s k); [|discriminate]. destruct (lPH s k); injection H as <-; reflexivity. Qed.
Lemma page_in_nc : forall (s s' : lmpo) k, page_in s k = Ok s' -> lnc s' = lnc s.
Proof. intros s s' k H. unfold page_in in H. destruct (lPH s k); [congruence|]. destruct (lfile s k); [|discriminate]. injection H as <-. reflexivity. Qed.
Lemma setL_nc : forall (s s' : lmpo) v, setLHlim s v = Ok s' -> lnc s' = lnc s.
Proof.
  intros s s' v H. unfold setLHlim in H. destruct (negb (lwr s)); [injection H as <-; reflexivity|].
  destruct (page_out s (lL s) v) as [s1| |] eqn:E1; cbn [obind] in H; try discriminate. apply page_out_nc in E1. destruct (negb _); [discriminate|].
  destruct (v <? 1)%Z; [injection H as <-; exact E1|]. apply page_in_nc in H. rewrite H. exact E1.
Qed.
Lemma setR_nc : forall (s s' : lmpo) v, setRHlim s v = Ok s' -> lnc s' = lnc s.
Proof.
  intros s s' v H. unfold setRHlim in H. destruct (negb (lwr s)); [injection H as <-; reflexivity|].
  destruct (page_out s (lR s) v) as [s1| |] eqn:E1; cbn [obind] in H; try discriminate. apply page_out_nc in E1. destruct (negb _); [discriminate|].
  destruct (lN s <? v)%Z; [injection H as <-; exact E1|]. apply page_in_nc in H. rewrite H. exact E1.
Qed.
Lemma makeL_nc : forall k psi (s s' : lmpo), makeL_loop stepL k psi s = Ok s' -> lnc s' = lnc s.
Proof.
  induction k as [|k IH]; intros psi s s' H; cbn [makeL_loop] in H; [congruence|]. destruct (_ && _); [|discriminate].
  destruct (setLHlim _ _) as [s2| |] eqn:EE; cbn [obind] in H; try discriminate. apply IH in H. apply setL_nc in EE. rewrite H, EE. reflexivity.
Qed.
Lemma makeR_nc : forall k psi (s s' : lmpo), makeR_loop stepR k psi s = Ok s' -> lnc s' = lnc s.
Proof.
  induction k as [|k IH]; intros psi s s' H; cbn [makeR_loop] in H; [congruence|]. destruct (_ && _); [|discriminate].
  destruct (setRHlim _ _) as [s2| |] eqn:EE; cbn [obind] in H; try discriminate. apply IH in H. apply setR_nc in EE. rewrite H, EE. reflexivity.
Qed.
Lemma position_nc : forall psi (s s' : lmpo) b, position stepL stepR psi s b = Ok s' -> lnc s' = lnc s.
Proof.
  intros psi s s' b H. unfold position, makeL, makeR in H.
  destruct (makeL_loop _ _ _ _) as [s1| |] eqn:E1; cbn [obind] in H; try discriminate. apply makeL_nc in E1.
  destruct (makeR_loop _ _ _ _) as [s2| |] eqn:E2; cbn [obind] in H; try discriminate. apply makeR_nc in E2.
  destruct (setLHlim _ _) as [s3| |] eqn:E3; cbn [obind] in H; try discriminate. apply setL_nc in E3. apply setR_nc in H. congruence.
Qed.
Lemma shift_nc : forall (s s' : lmpo) j A, shift stepL stepR s j true A = Ok s' -> lnc s' = lnc s.
Proof.
  intros s s' j A H. unfold shift in H. destruct (negb (lop s)); [discriminate|]. destruct (negb _); [discriminate|]. destruct (_ && _); [|discriminate].
  destruct (lPH s (lL s)); [|discriminate]. destruct (setLHlim _ _) as [s3| |] eqn:E3; cbn [obind] in H; try discriminate. apply setL_nc in E3. apply setR_nc in H. rewrite H, E3. reflexivity.
Qed.
Lemma page_out_wr : forall (s s' : lmpo) k v, page_out s k v = Ok s' -> lwr s' = lwr s.
Proof. intros s s' k v H. unfold page_out in H. destruct (k =? v)%Z; [congruence|]. destruct (at_ok s k); [|discriminate]. destruct (lPH s k); injection H as <-; reflexivity. Qed.
Lemma page_in_wr : forall (s s' : lmpo) k, page_in s k = Ok s' -> lwr s' = lwr s.
Proof. intros s s' k H. unfold page_in in H. destruct (lPH s k); [congruence|]. destruct (lfile s k); [|discriminate]. injection H as <-. reflexivity. Qed.
Lemma setL_wr : forall (s s' : lmpo) v, setLHlim s v = Ok s' -> lwr s' = lwr s.
Proof.
  intros s s' v H. unfold setLHlim in H. destruct (negb (lwr s)); [injection H as <-; reflexivity|].
  destruct (page_out s (lL s) v) as [s1| |] eqn:E1; cbn [obind] in H; try discriminate. apply page_out_wr in E1. destruct (negb _); [discriminate|].
  destruct (v <? 1)%Z; [injection H as <-; exact E1|]. apply page_in_wr in H. rewrite H. exact E1.
Qed.
Lemma setR_wr : forall (s s' : lmpo) v, setRHlim s v = Ok s' -> lwr s' = lwr s.
Proof.
  intros s s' v H. unfold setRHlim in H. destruct (negb (lwr s)); [injection H as <-; reflexivity|].
  destruct (page_out s (lR s) v) as [s1| |] eqn:E1; cbn [obind] in H; try discriminate. apply page_out_wr in E1. destruct (negb _); [discriminate|].
  destruct (lN s <? v)%Z; [injection H as <-; exact E1|]. apply page_in_wr in H. rewrite H. exact E1.
Qed.
Lemma makeL_wr : forall k psi (s s' : lmpo), makeL_loop stepL k psi s = Ok s' -> lwr s' = lwr s.
Proof.
  induction k as [|k IH]; intros psi s s' H; cbn [makeL_loop] in H; [congruence|]. destruct (_ && _); [|discriminate].
  destruct (setLHlim _ _) as [s2| |] eqn:EE; cbn [obind] in H; try discriminate. apply IH in H. apply setL_wr in EE. rewrite H, EE. reflexivity.
Qed.
Lemma makeR_wr : forall k psi (s s' : lmpo), makeR_loop stepR k psi s = Ok s' -> lwr s' = lwr s.
Proof.
  induction k as [|k IH]; intros psi s s' H; cbn [makeR_loop] in H; [congruence|]. destruct (_ && _); [|discriminate].
  destruct (setRHlim _ _) as [s2| |] eqn:EE; cbn [obind] in H; try discriminate. apply IH in H. apply setR_wr in EE. rewrite H, EE. reflexivity.
Qed.
Lemma position_wr : forall psi (s s' : lmpo) b, position stepL stepR psi s b = Ok s' -> lwr s' = lwr s.
Proof.
  intros psi s s' b H. unfold position, makeL, makeR in H.
  destruct (makeL_loop _ _ _ _) as [s1| |] eqn:E1; cbn [obind] in H; try discriminate. apply makeL_wr in E1.
  destruct (makeR_loop _ _ _ _) as [s2| |] eqn:E2; cbn [obind] in H; try discriminate. apply makeR_wr in E2.
  destruct (setLHlim _ _) as [s3| |] eqn:E3; cbn [obind] in H; try discriminate. apply setL_wr in E3. apply setR_wr in H. congruence.
Qed.
Lemma window_step : forall n op (s s' : lmpo) psi psi' o, (1 <= n)%Z -> lreach stepL stepR n op None None 0 (n + 1) s psi -> lvalid n op None None 0 (n + 1) s o ->
  lstep stepL stepR s psi o = Ok (s', psi') -> window s' = next_window n o (window s).
Proof.
  intros n op s s' psi psi' o Hn RE V H. pose proof (reach_inv stepL stepR n op None None 0 (n + 1) ltac:(lia) s psi RE) as I.
  destruct (step_ok stepL stepR n op None None 0 (n + 1) ltac:(lia) s psi o I V) as (s1 & p1 & E1 & _ & P). rewrite E1 in H. injection H as -> ->.
  unfold window, next_window. destruct o as [b|v|j t|j| |]; cbn [lstep] in E1.
  - destruct P as (P1 & P2 & _). destruct (position _ _ _ _ _) as [s2| |] eqn:EE; cbn [obind] in E1; try discriminate. injection E1 as -> _. apply position_nc in EE. rewrite P1, P2, EE. reflexivity.
  - unfold numCenter in E1. destruct (_ || _); [discriminate|]. cbn [obind] in E1. injection E1 as <- _. reflexivity.
  - injection E1 as <- _. reflexivity.
  - destruct P as (P1 & P2 & _). destruct (shift _ _ _ _ _ _) as [s2| |] eqn:EE; cbn [obind] in E1; try discriminate. injection E1 as -> _. apply shift_nc in EE. rewrite P1, P2, EE. reflexivity.
  - unfold reset in E1. destruct (lop s); [|discriminate]. cbn [obind] in E1. injection E1 as <- _. cbn. destruct I as ((EN & _) & _). rewrite EN. reflexivity.
  - unfold doWrite in E1. destruct (negb (lop s)); [discriminate|]. cbn [obind] in E1. injection E1 as <- _. reflexivity.
Qed.
Definition changed (psi : Z -> T) (o : lact T) : Z -> T := match o with Change j t => fun k => if (k =? j)%Z then t else psi k | _ => psi end.
Lemma lstep_psi : forall (s s' : lmpo) psi psi' o, lstep stepL stepR s psi o = Ok (s', psi') -> psi' = changed psi o.
Proof.
  intros s s' psi psi' o H. destruct o; cbn [lstep changed] in *.
  - destruct (position _ _ _ _ _); cbn [obind] in H; try discriminate. congruence.
  - destruct (numCenter _ _); cbn [obind] in H; try discriminate. congruence.
  - congruence.
  - destruct (shift _ _ _ _ _ _); cbn [obind] in H; try discriminate. congruence.
  - destruct (reset _); cbn [obind] in H; try discriminate. congruence.
  - destruct (doWrite _ _); cbn [obind] in H; try discriminate. congruence.
Qed.
End Windows.

Section Lset.
Context {R : Type} (r0 r1 : R) (radd rmul rsub : R -> R -> R) (ropp : R -> R) (conj : R -> R).
Context (RT : ring_theory r0 r1 radd rmul rsub ropp eq).
Context (conj0 : conj r0 = r0) (conj1 : conj r1 = r1)
  (conj_add : forall x y, conj (radd x y) = radd (conj x) (conj y))
  (conj_mul : forall x y, conj (rmul x y) = rmul (conj x) (conj y)).
Add Ring RRlset : RT.
Notation tensor := (@tensor R).
Notation wten := (wten R).
Notation bsum := (bsum r0 radd).
Notation csum := (csum r0 radd).
Notation lsum := (lsum r0 radd).
Notation chain := (chain r0 r1 radd rmul).
Notation delta := (delta r0 r1).
Notation insert := (insert r0 r1 radd rmul).
Notation overlap := (overlap r0 r1 radd rmul conj).
Notation ostepL := (ostepL r0 radd rmul conj).
Notation ostepR := (ostepR r0 radd rmul conj).
Notation oth_left := (oth_left r0 radd rmul conj).
Notation oth_right := (oth_right r0 radd rmul conj).
Notation other := (other r0 radd rmul conj).
Notation "x + y" := (radd x y). Notation "x * y" := (rmul x y).

Local Ltac nmul :=
  lazymatch goal with
  | |- LocalSem.lsum _ _ _ _ * _ = _ => etransitivity; [apply (lsum_mul_r r0 r1 radd rmul rsub ropp RT)|]; eapply (lsum_ext r0 radd); intros; nmul
  | |- _ * LocalSem.lsum _ _ _ _ = _ => etransitivity; [apply (lsum_mul_l r0 r1 radd rmul rsub ropp RT)|]; eapply (lsum_ext r0 radd); intros; nmul
  | |- _ => reflexivity
  end.
Local Ltac nconj :=
  lazymatch goal with
  | |- conj (LocalSem.lsum _ _ _ _) = _ => etransitivity; [apply (lsum_conj r0 radd conj conj0 conj_add)|]; eapply (lsum_ext r0 radd); intros; nconj
  | |- conj (_ * _) = _ => etransitivity; [apply conj_mul|]; eapply (mul_cong rmul); [nconj|nconj|reflexivity]
  | |- _ => reflexivity
  end.
Local Ltac norm :=
  lazymatch goal with
  | |- BigSum.bsum _ _ _ _ = _ => etransitivity; [apply (bsum_lsum r0 r1 radd rmul rsub ropp RT)|]; eapply (lsum_ext r0 radd); intros; norm
  | |- BigSum.csum _ _ _ _ = _ => etransitivity; [apply (csum_lsum r0 r1 radd rmul rsub ropp RT)|]; eapply (lsum_ext r0 radd); intros; norm
  | |- LocalSem.lsum _ _ _ _ = _ => eapply (lsum_ext r0 radd); intros; norm
  | |- _ * _ = _ => eapply (mul_cong rmul); [norm|norm|nmul]
  | |- conj _ = _ => eapply (conj_cong conj); [norm|nconj]
  | |- _ => reflexivity
  end.
Local Ltac both := etransitivity; [norm|]; symmetry; etransitivity; [norm|]; symmetry.
Local Ltac pick k :=
  (lazymatch k with
   | 0 => idtac
   | 1 => etransitivity; [|symmetry; apply (br1 r0 r1 radd rmul rsub ropp RT)] | 2 => etransitivity; [|symmetry; apply (br2 r0 r1 radd rmul rsub ropp RT)]
   | 3 => etransitivity; [|symmetry; apply (br3 r0 r1 radd rmul rsub ropp RT)] | 4 => etransitivity; [|symmetry; apply (br4 r0 r1 radd rmul rsub ropp RT)]
   | 5 => etransitivity; [|symmetry; apply (br5 r0 r1 radd rmul rsub ropp RT)] | 6 => etransitivity; [|symmetry; apply (br6 r0 r1 radd rmul rsub ropp RT)]
   | 7 => etransitivity; [|symmetry; apply (br7 r0 r1 radd rmul rsub ropp RT)] end); apply (lsum_ext r0 radd); intros.

(** * The edges of an MPS projector *)
Definition oleft (ts fs : list tensor) (a A : nat) : R := csum (sites ts) (fun c => chain ts c 0 a * conj (chain fs c 0 A)).
Definition oright (ts fs : list tensor) (b B : nat) : R := csum (sites ts) (fun c => chain ts c b 0 * conj (chain fs c B 0)).
Definition oval (e : option (@oedge R)) : nat -> nat -> R := match e with Some e => e | None => fun _ _ => r1 end.

Lemma oleft_snoc : forall ts fs (t f : tensor) j (F : Z -> tensor) b B, F j = f -> linked 1 ts (tl t) -> linked 1 fs (tl f) -> length fs = length ts -> b < tr t -> B < tr f ->
  oleft (ts ++ [t]) (fs ++ [f]) b B = ostepL F j (Some (oleft ts fs)) t b B.
Proof.
  intros ts fs t f j F b B EF Lt Lf Len Hb HB. unfold LsetModel.ostepL. rewrite EF.
  transitivity (lsum (confs (sites ts)) (fun c => lsum (seq 0 (tp t)) (fun s =>
    bsum (tl t) (fun a => chain ts c 0 a * te t a s b) * conj (bsum (tl f) (fun A => chain fs c 0 A * te f A s B))))).
  { unfold oleft. rewrite (sites_app ts [t]). change (sites [t]) with [tp t]. rewrite (csum_snoc r0 r1 radd rmul rsub ropp RT).
    apply (lsum_ext r0 radd); intros c Hc. apply (lsum_ext r0 radd); intros s Hs. apply conf_len in Hc. unfold sites in Hc. rewrite map_length in Hc.
    rewrite (chain_app r0 r1 radd rmul rsub ropp RT ts c [t] [s] 1 (tl t)) by (auto; lia).
    rewrite (chain_app r0 r1 radd rmul rsub ropp RT fs c [f] [s] 1 (tl f)) by (auto; lia).
    f_equal; [|f_equal]; apply (bsum_ext r0 radd); intros e He; rewrite (chain_one r0 r1 radd rmul rsub ropp RT) by assumption; reflexivity. }
  unfold oleft. both. (* c s a A | A s a c *) pick 3. pick 1. pick 1. pick 0. ring.
Qed.
Lemma oright_cons : forall ts fs (t f : tensor) j (F : Z -> tensor) a A, F j = f -> oright (t :: ts) (f :: fs) a A = ostepR F j (Some (oright ts fs)) t a A.
Proof.
  intros ts fs t f j F a A EF. unfold LsetModel.ostepR, oright. rewrite EF. cbn [sites map BigSum.csum]. change (map (@tp R) ts) with (sites ts). cbn [MpsSpec.chain]. both.
  (* s c b B | B s b c *) pick 1. pick 2. pick 1. pick 0. ring.
Qed.
Lemma ostepL_ext : forall F j e e' (t : tensor) b B, (forall a A, a < tl t -> A < tl (F j) -> e a A = e' a A) -> ostepL F j (Some e) t b B = ostepL F j (Some e') t b B.
Proof. intros F j e e' t b B H. unfold LsetModel.ostepL. apply (bsum_ext r0 radd); intros A HA. apply (bsum_ext r0 radd); intros s Hs. f_equal. apply (bsum_ext r0 radd); intros a Ha. rewrite H by assumption. reflexivity. Qed.
Lemma ostepR_ext : forall F j e e' (t : tensor) b B, (forall a A, a < tr t -> A < tr (F j) -> e a A = e' a A) -> ostepR F j (Some e) t b B = ostepR F j (Some e') t b B.
Proof. intros F j e e' t b B H. unfold LsetModel.ostepR. apply (bsum_ext r0 radd); intros A HA. apply (bsum_ext r0 radd); intros s Hs. f_equal. apply (bsum_ext r0 radd); intros a Ha. rewrite H by assumption. reflexivity. Qed.
Lemma b1' : forall f : nat -> R, bsum 1 f = f 0.
Proof. intros f. cbn. ring. Qed.
Lemma ostepL_none : forall F j (t : tensor) b B, tl t = 1 -> tl (F j) = 1 -> ostepL F j None t b B = ostepL F j (Some (oval None)) t b B.
Proof. intros F j t b B H1 H2. unfold LsetModel.ostepL, oval. rewrite H1, H2, b1'. apply (bsum_ext r0 radd); intros s Hs. rewrite b1'. ring. Qed.
Lemma ostepR_none : forall F j (t : tensor) b B, tr t = 1 -> tr (F j) = 1 -> ostepR F j None t b B = ostepR F j (Some (oval None)) t b B.
Proof. intros F j t b B H1 H2. unfold LsetModel.ostepR, oval. rewrite H1, H2, b1'. apply (bsum_ext r0 radd); intros s Hs. rewrite b1'. ring. Qed.

Lemma oenv_left : forall (F psi : Z -> tensor) k dl D, linked 1 (seg psi 1 k) dl -> linked 1 (seg F 1 k) D ->
  forall a A, a < dl -> A < D -> oval (envL_n (ostepL F) None 0 psi k) a A = oleft (seg psi 1 k) (seg F 1 k) a A.
Proof.
  intros F psi. induction k as [|k IH]; intros dl D Lt Lf a A Ha HA.
  - cbn in Lt, Lf. subst. assert (a = 0) as -> by lia. assert (A = 0) as -> by lia. unfold oleft. cbn. rewrite conj1. ring.
  - rewrite seg_S in Lt. rewrite seg_S in Lf. rewrite !seg_S. apply linked_app in Lt. destruct Lt as (m & Lt & (L1 & L2)). cbn in L2.
    apply linked_app in Lf. destruct Lf as (m' & Lf & (F1 & F2)). cbn in F2. subst dl D m m'.
    rewrite (oleft_snoc _ _ _ _ (1 + Z.of_nat k)%Z F a A eq_refl Lt Lf) by (rewrite ?seg_len; auto).
    cbn [envL_n oval]. replace (0 + Z.of_nat (S k))%Z with (1 + Z.of_nat k)%Z by lia.
    destruct k as [|k].
    + cbn in Lt, Lf. cbn [envL_n]. rewrite ostepL_none by auto. apply ostepL_ext. intros x y Hx Hy. rewrite <- (IH _ _ Lt Lf) by assumption. reflexivity.
    + cbn [envL_n]. apply ostepL_ext. intros x y Hx Hy. rewrite <- (IH _ _ Lt Lf) by assumption. reflexivity.
Qed.
Lemma oenv_right : forall (F psi : Z -> tensor) r k dr D, linked dr (seg psi (r - Z.of_nat k) k) 1 -> linked D (seg F (r - Z.of_nat k) k) 1 ->
  forall b B, b < dr -> B < D -> oval (envR_n (ostepR F) None r psi k) b B = oright (seg psi (r - Z.of_nat k) k) (seg F (r - Z.of_nat k) k) b B.
Proof.
  intros F psi r. induction k as [|k IH]; intros dr D Lt Lf b B Hb HB.
  - cbn in Lt, Lf. subst. assert (b = 0) as -> by lia. assert (B = 0) as -> by lia. unfold oright. cbn. rewrite conj1. ring.
  - rewrite seg_cons in Lt. rewrite seg_cons in Lf. rewrite !seg_cons. rewrite (oright_cons _ _ _ _ (r - Z.of_nat (S k))%Z F b B eq_refl).
    replace (r - Z.of_nat (S k) + 1)%Z with (r - Z.of_nat k)%Z in * by lia. destruct Lt as (L1 & Lt). destruct Lf as (F1 & Lf). subst dr D.
    cbn [envR_n oval]. destruct k as [|k].
    + cbn in Lt, Lf. cbn [envR_n]. rewrite ostepR_none by auto. apply ostepR_ext. intros x y Hx Hy. rewrite <- (IH _ _ Lt Lf) by assumption. reflexivity.
    + apply ostepR_ext. intros x y Hx Hy. rewrite <- (IH _ _ Lt Lf) by assumption. reflexivity.
Qed.

(** * othr *)
Definition okernel (L Rt : nat -> nat -> R) (fs : list tensor) (D1 D2 a : nat) (c : list nat) (b : nat) : R :=
  bsum D1 (fun A => bsum D2 (fun B => L a A * conj (chain fs c A B) * Rt b B)).
Lemma oth_left_ok : forall L (f : tensor) a s m, (L = None -> tl f = 1) -> oth_left L f a s m = bsum (tl f) (fun A => oval L a A * conj (te f A s m)).
Proof. intros [l|] f a s m H; unfold LsetModel.oth_left, oval; [reflexivity|]. rewrite H by reflexivity. rewrite b1'. ring. Qed.
Lemma oth_right_ok : forall Rt (f : tensor) m s b, (Rt = None -> tr f = 1) -> oth_right Rt f m s b = bsum (tr f) (fun B => oval Rt b B * conj (te f m s B)).
Proof. intros [l|] f a s m H; unfold LsetModel.oth_right, oval; [reflexivity|]. rewrite H by reflexivity. rewrite b1'. ring. Qed.
Lemma conj_bsum : forall n f, conj (bsum n f) = bsum n (fun i => conj (f i)).
Proof. intros n f. both. reflexivity. Qed.
Lemma other_ok : forall L Rt fs D1 D2, length fs <= 2 -> linked D1 fs D2 -> (L = None -> D1 = 1) -> (Rt = None -> D2 = 1) -> (fs = [] -> L <> None \/ Rt <> None) ->
  exists o, other L Rt fs D1 = Ok o /\ forall a c b, length c = length fs -> o a c b = okernel (oval L) (oval Rt) fs D1 D2 a c b.
Proof.
  intros L Rt fs D1 D2 Len LK HL HR HB. destruct fs as [|f [|g [|? ?]]]; [| | |cbn in Len; lia].
  - cbn in LK. subst D2. specialize (HB eq_refl). unfold LsetModel.other.
    assert (K : forall a c b, length c = length (@nil tensor) -> okernel (oval L) (oval Rt) [] D1 D1 a c b = bsum D1 (fun m => oval L a m * oval Rt b m)).
    { intros a c b Hc. destruct c; [|discriminate]. unfold okernel. apply (bsum_ext r0 radd); intros A HA. cbn [MpsSpec.chain].
      rewrite <- (bsum_delta r0 r1 radd rmul rsub ropp RT D1 A (fun B => oval L a A * oval Rt b B) HA). apply (bsum_ext r0 radd); intros B _. unfold BigSum.delta. destruct (A =? B); [rewrite conj1|rewrite conj0]; ring. }
    destruct L as [l|], Rt as [r|]; try (destruct HB; congruence); eexists; (split; [reflexivity|]); intros a c b Hc; rewrite K by exact Hc; cbn [oval].
    + reflexivity.
    + rewrite HR by reflexivity. rewrite b1'. ring.
    + rewrite HL by reflexivity. rewrite b1'. ring.
  - destruct LK as (L1 & L2). cbn in L2. subst D1 D2. unfold LsetModel.other. eexists; split; [reflexivity|]. intros a c b Hc. destruct c as [|s [|? ?]]; try discriminate. cbn [nth].
    assert (K : okernel (oval L) (oval Rt) [f] (tl f) (tr f) a [s] b = bsum (tr f) (fun m => oth_left L f a s m * oval Rt b m)).
    { unfold okernel. transitivity (bsum (tl f) (fun A => bsum (tr f) (fun B => oval L a A * conj (te f A s B) * oval Rt b B))).
      - apply (bsum_ext r0 radd); intros A HA. apply (bsum_ext r0 radd); intros B HB'. rewrite (chain_one r0 r1 radd rmul rsub ropp RT) by assumption. reflexivity.
      - transitivity (bsum (tr f) (fun m => bsum (tl f) (fun A => oval L a A * conj (te f A s m)) * oval Rt b m)).
        + both. pick 1. pick 0. ring.
        + apply (bsum_ext r0 radd); intros m Hm. rewrite oth_left_ok by exact HL. reflexivity. }
    rewrite K. destruct Rt as [r|]; [reflexivity|]. rewrite HR by reflexivity. rewrite b1'. cbn [oval]. ring.
  - destruct LK as (L1 & L2 & L3). cbn in L3. subst D1 D2. unfold LsetModel.other. eexists; split; [reflexivity|]. intros a c b Hc. destruct c as [|s [|s2 [|? ?]]]; try discriminate. cbn [nth].
    transitivity (bsum (tr f) (fun m => bsum (tl f) (fun A => oval L a A * conj (te f A s m)) * bsum (tr g) (fun B => oval Rt b B * conj (te g m s2 B)))).
    { apply (bsum_ext r0 radd); intros m Hm. rewrite oth_left_ok, oth_right_ok by assumption. reflexivity. }
    unfold okernel. transitivity (bsum (tl f) (fun A => bsum (tr g) (fun B => oval L a A * conj (bsum (tr f) (fun m => te f A s m * te g m s2 B)) * oval Rt b B))).
    { both. pick 2. pick 0. pick 0. ring. }
    apply (bsum_ext r0 radd); intros A HA. apply (bsum_ext r0 radd); intros B HB'. do 3 f_equal. cbn [MpsSpec.chain]. apply (bsum_ext r0 radd); intros m Hm. f_equal.
    symmetry. apply (chain_one r0 r1 radd rmul rsub ropp RT g s2 m B HB').
Qed.
(** othr*phi is the overlap. *)
Lemma kernel_overlap : forall tsL tsR fL fm fR mid dl dr D1 D2 phi, linked 1 fL D1 -> linked D1 fm D2 -> length fL = length tsL -> length fm = length mid ->
  bsum dl (fun a => csum mid (fun c => bsum dr (fun b => okernel (oleft tsL fL) (oright tsR fR) fm D1 D2 a c b * phi a c b))) =
  overlap (fL ++ fm ++ fR) tsL tsR mid dl dr phi.
Proof.
  intros tsL tsR fL fm fR mid dl dr D1 D2 phi K1 K2 Len Len2. unfold LsetSpec.overlap.
  transitivity (lsum (confs (sites tsL)) (fun cL => lsum (confs mid) (fun c => lsum (confs (sites tsR)) (fun cR =>
    conj (bsum D1 (fun A => chain fL cL 0 A * bsum D2 (fun B => chain fm c A B * chain fR cR B 0))) * insert tsL tsR dl dr phi cL c cR)))).
  - unfold okernel, oleft, oright, LocalMeaning.insert. both.
    (* a c b A B cL cR | cL c cR A B a b *) pick 5. pick 1. pick 4. pick 2. pick 2. pick 0. pick 0. ring.
  - symmetry. etransitivity; [norm|]. apply (lsum_ext r0 radd); intros cL HcL. apply (lsum_ext r0 radd); intros c Hc. apply (lsum_ext r0 radd); intros cR HcR.
    apply conf_len in HcL. apply conf_len in Hc. unfold sites in HcL. rewrite map_length in HcL. f_equal. f_equal. unfold amplitude.
    rewrite (chain_app r0 r1 radd rmul rsub ropp RT fL cL _ _ 1 D1) by (auto; lia). apply (bsum_ext r0 radd); intros A HA. f_equal.
    rewrite (chain_app r0 r1 radd rmul rsub ropp RT fm c _ _ D1 D2) by (auto; lia). reflexivity.
Qed.
End Lset.
