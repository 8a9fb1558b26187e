(** Lemmas for C60: the sweep of applyMPO is the sweep of MPS::orthogonalize (C55) on the chain of
    products of the tensors of K and x, with the two links of a bond taken as one. *)
From Coq Require Import ZArith List Bool Arith Lia Ring.
From Verif Require Import Util BigSum MpsModel MpsTensor MpsSpec MpsProofs LocalSem OrtSpec OrtModel OrtProofs ApplySpec ApplyModel.
Import ListNotations.
Local Open Scope outcome_scope.

Section ApplyProofs.
Context {R : Type} (r0 r1 : R) (radd rmul rsub : R -> R -> R) (ropp : R -> R) (conj : R -> R).
Context (RT : ring_theory r0 r1 radd rmul rsub ropp eq).
Hypothesis conj0 : conj r0 = r0.
Hypothesis conj1 : conj r1 = r1.
Hypothesis conj_add : forall x y, conj (radd x y) = radd (conj x) (conj y).
Hypothesis conj_mul : forall x y, conj (rmul x y) = rmul (conj x) (conj y).
Hypothesis conj_conj : forall x, conj (conj x) = x.
Add Ring RRapp : RT.
Notation tensor := (@tensor R).
Notation kten := (kten R).
Notation bsum := (bsum r0 radd).
Notation csum := (csum r0 radd).
Notation lsum := (lsum r0 radd).
Notation chain := (chain r0 r1 radd rmul).
Notation kchain := (kchain r0 r1 radd rmul).
Notation delta := (delta r0 r1).
Notation "x + y" := (radd x y). Notation "x * y" := (rmul x y).
Let ls_ext := @lsum_ext R r0 radd.
Let ls_l := @lsum_mul_l R r0 r1 radd rmul rsub ropp RT.
Let ls_r := @lsum_mul_r R r0 r1 radd rmul rsub ropp RT.
Let ls_conj : forall A (l : list A) f, conj (lsum l f) = lsum l (fun x => conj (f x)).
Proof. intros A l f. induction l as [|x l IH]; cbn [LocalSem.lsum]; [assumption|]. rewrite conj_add, IH. reflexivity. Qed.
Let bs_ls := @bsum_lsum R r0 r1 radd rmul rsub ropp RT.
Let cs_ls := @csum_lsum R r0 r1 radd rmul rsub ropp RT.
Let b1 := fun A B => @br1 R r0 r1 radd rmul rsub ropp RT A B.
Let b2 := fun A B C => @br2 R r0 r1 radd rmul rsub ropp RT A B C.
Let b3 := fun A B C D => @br3 R r0 r1 radd rmul rsub ropp RT A B C D.
Let b4 := fun A B C D E => @br4 R r0 r1 radd rmul rsub ropp RT A B C D E.
Let b5 := fun A B C D E F => @br5 R r0 r1 radd rmul rsub ropp RT A B C D E F.
Let b6 := fun A B C D E F G => @br6 R r0 r1 radd rmul rsub ropp RT A B C D E F G.

Lemma mul_cg : forall a a' b b' c, a = a' -> b = b' -> a' * b' = c -> a * b = c.
Proof. intros; subst; reflexivity. Qed.
Lemma conj_cg : forall a a' c, a = a' -> conj a' = c -> conj a = c.
Proof. intros; subst; reflexivity. Qed.
Ltac nmul :=
  lazymatch goal with
  | |- lsum _ _ * _ = _ => etransitivity; [apply ls_r|]; eapply ls_ext; intros; nmul
  | |- _ * lsum _ _ = _ => etransitivity; [apply ls_l|]; eapply ls_ext; intros; nmul
  | |- _ => reflexivity
  end.
Ltac nconj :=
  lazymatch goal with
  | |- conj (lsum _ _) = _ => etransitivity; [apply ls_conj|]; eapply ls_ext; intros; nconj
  | |- conj (_ * _) = _ => etransitivity; [apply conj_mul|]; eapply mul_cg; [nconj|nconj|reflexivity]
  | |- _ => reflexivity
  end.
Ltac norm :=
  lazymatch goal with
  | |- bsum _ _ = _ => etransitivity; [apply bs_ls|]; eapply ls_ext; intros; norm
  | |- csum _ _ = _ => etransitivity; [apply cs_ls|]; eapply ls_ext; intros; norm
  | |- lsum _ _ = _ => eapply ls_ext; intros; norm
  | |- _ * _ = _ => eapply mul_cg; [norm|norm|nmul]
  | |- conj _ = _ => eapply conj_cg; [norm|nconj]
  | |- _ => reflexivity
  end.
Ltac both := etransitivity; [norm|]; symmetry; etransitivity; [norm|]; symmetry.
Ltac pick k :=
  (lazymatch k with
   | 0 => idtac
   | 1 => etransitivity; [|symmetry; apply b1] | 2 => etransitivity; [|symmetry; apply b2]
   | 3 => etransitivity; [|symmetry; apply b3] | 4 => etransitivity; [|symmetry; apply b4]
   | 5 => etransitivity; [|symmetry; apply b5] | 6 => etransitivity; [|symmetry; apply b6] end); apply ls_ext; intros.

(** A sum over pairs taken as one number. *)
Lemma bsum_prod m n f : bsum (m * n) f = bsum n (fun j => bsum m (fun i => f (i + m * j)%nat)).
Proof.
  induction n as [|n IH]; [rewrite Nat.mul_0_r; reflexivity|].
  rewrite Nat.mul_succ_r, (bsum_split r0 r1 radd rmul rsub ropp RT), IH.
  replace (S n) with (n + 1)%nat by lia. rewrite (bsum_split r0 r1 radd rmul rsub ropp RT n 1). f_equal.
  rewrite (bsum_1 r0 r1 radd rmul rsub ropp RT), Nat.add_0_r. apply (bsum_ext r0 radd). intros i _. f_equal. lia.
Qed.
Lemma pmod a m w : a < m -> ((a + m * w) mod m = a)%nat.
Proof. intros H. rewrite Nat.mul_comm, Nat.mod_add by lia. now apply Nat.mod_small. Qed.
Lemma pdiv a m w : a < m -> ((a + m * w) / m = w)%nat.
Proof. intros H. rewrite Nat.mul_comm, Nat.div_add by lia. rewrite Nat.div_small by assumption. reflexivity. Qed.

(** The product of two tensors, with joined links. *)
Definition pt (p : tensor * kten) : tensor :=
  let (x, K) := p in
  mkT (tl x * kl K) (ko K) (tr x * kr K) (tj x) (fun i s' j =>
    bsum (tp x) (fun s => te x (i mod tl x) s (j mod tr x) * ke K (i / tl x) s s' (j / tr x))).
Definition enc (O : oten R) : tensor := mkT (oa O * ow O) (op O) (orr O) (oj O) (fun i s k => oe O (i mod oa O) (i / oa O) s k).

Lemma pt_te x K a w s' b v : a < tl x -> b < tr x -> te (pt (x, K)) (a + tl x * w) s' (b + tr x * v) = bsum (tp x) (fun s => te x a s b * ke K w s s' v).
Proof. intros Ha Hb. cbn [pt te]. rewrite !pmod, !pdiv by assumption. reflexivity. Qed.
Lemma enc_te O a w s k : a < oa O -> te (enc O) (a + oa O * w) s k = oe O a w s k.
Proof. intros Ha. cbn [enc te]. rewrite pmod, pdiv by assumption. reflexivity. Qed.

Notation env := (env r0 radd rmul conj).
Notation aenv := (aenv r0 radd rmul conj).
Lemma linked_pt ps : forall a w b v, linked a (map fst ps) b -> klinked w (map snd ps) v -> linked (a * w) (map pt ps) (b * v).
Proof.
  induction ps as [|[x K] ps IH]; intros a w b v L M; cbn in *; [subst; reflexivity|].
  destruct L as [<- L], M as [<- M]. split; [reflexivity|]. now apply IH.
Qed.
Lemma klinked_app : forall (k1 k2 : list kten) a b, klinked a (k1 ++ k2) b -> exists e, klinked a k1 e /\ klinked e k2 b.
Proof.
  induction k1 as [|K k1 IH]; intros k2 a b H; [exists a; split; [reflexivity|assumption]|].
  destruct H as [H1 H2]. destruct (IH _ _ _ H2) as (e & A & B). exists e. cbn. auto.
Qed.

Lemma env1_pt x K b v b' v' : tl x = 1 -> kl K = 1 -> b < tr x -> b' < tr x ->
  aenv1 r0 radd rmul conj (x, K) b v b' v' = env1 r0 radd rmul conj (pt (x, K)) (b + tr x * v)%nat (b' + tr x * v')%nat.
Proof.
  intros Hx HK Hb Hb'. unfold aenv1, env1.
  transitivity (bsum (ko K) (fun s' => bsum (tp x) (fun s => te x 0 s b * ke K 0 s s' v) * conj (bsum (tp x) (fun s => te x 0 s b' * ke K 0 s s' v')))).
  - both. pick 2. pick 0. pick 0. ring.
  - change (tp (pt (x, K))) with (ko K). apply (bsum_ext r0 radd). intros s' _.
    pose proof (pt_te x K 0 0 s' b v ltac:(lia) Hb) as X. pose proof (pt_te x K 0 0 s' b' v' ltac:(lia) Hb') as Y. rewrite Nat.mul_0_r, Nat.add_0_l in X, Y. rewrite X, Y. reflexivity.
Qed.
Lemma env_next_pt E E' x K b v b' v' : b < tr x -> b' < tr x ->
  (forall a w a' w', a < tl x -> w < kl K -> a' < tl x -> w' < kl K -> E a w a' w' = E' (a + tl x * w)%nat (a' + tl x * w')%nat) ->
  aenv_next r0 radd rmul conj E (x, K) b v b' v' = env_next r0 radd rmul conj E' (pt (x, K)) (b + tr x * v)%nat (b' + tr x * v')%nat.
Proof.
  intros Hb Hb' HE. unfold aenv_next, env_next. change (tl (pt (x, K))) with (tl x * kl K)%nat. change (tp (pt (x, K))) with (ko K).
  transitivity (bsum (kl K) (fun w => bsum (tl x) (fun a => bsum (kl K) (fun w' => bsum (tl x) (fun a' => bsum (ko K) (fun s' =>
    E a w a' w' * bsum (tp x) (fun s => te x a s b * ke K w s s' v) * conj (bsum (tp x) (fun s => te x a' s b' * ke K w' s s' v')))))))).
  - both. pick 3. pick 5. pick 2. pick 2. pick 0. pick 1. pick 0. ring.
  - rewrite bsum_prod. apply (bsum_ext r0 radd). intros w Hw. apply (bsum_ext r0 radd). intros a Ha.
    rewrite bsum_prod. apply (bsum_ext r0 radd). intros w' Hw'. apply (bsum_ext r0 radd). intros a' Ha'. apply (bsum_ext r0 radd). intros s' _.
    rewrite HE, !pt_te by assumption. reflexivity.
Qed.
Lemma aenv_pt rest : rest <> [] -> forall da dw b v b' v', linked 1 (rev (map fst rest)) da -> klinked 1 (rev (map snd rest)) dw ->
  b < da -> v < dw -> b' < da -> v' < dw -> aenv rest b v b' v' = env (map pt rest) (b + da * v)%nat (b' + da * v')%nat.
Proof.
  induction rest as [|[x K] rest IH]; intros NE da dw b v b' v' L M Hb Hv Hb' Hv'; [congruence|]. cbn [map rev fst snd] in L, M.
  apply linked_app in L as (e & L1 & L2 & L3). apply klinked_app in M as (f & M1 & M2 & M3). cbn in L3, M3. subst da dw.
  destruct rest as [|p rest].
  - cbn in L1, M1. subst e f. cbn [ApplyModel.aenv map OrtModel.env]. apply env1_pt; congruence.
  - set (rs := p :: rest) in *. change (aenv ((x, K) :: rs) b v b' v') with (aenv_next r0 radd rmul conj (aenv rs) (x, K) b v b' v').
    change (env (map pt ((x, K) :: rs))) with (env_next r0 radd rmul conj (env (map pt rs)) (pt (x, K))).
    apply env_next_pt; try assumption. intros. rewrite L2. apply (IH ltac:(discriminate) e f); try assumption; congruence.
Qed.

Lemma arho_pt rest O : rest <> [] -> linked 1 (rev (map fst rest)) (oa O) -> klinked 1 (rev (map snd rest)) (ow O) -> forall s k s' k',
  arho r0 radd rmul conj (aenv rest) O s k s' k' = density r0 radd rmul conj (env (map pt rest)) (enc O) s k s' k'.
Proof.
  intros NE L M s k s' k'. unfold arho, density. change (tl (enc O)) with (oa O * ow O)%nat.
  transitivity (bsum (ow O) (fun w => bsum (oa O) (fun a => bsum (ow O) (fun w' => bsum (oa O) (fun a' => aenv rest a w a' w' * oe O a w s k * conj (oe O a' w' s' k')))))).
  - both. pick 3. pick 2. pick 1. pick 0. ring.
  - rewrite bsum_prod. apply (bsum_ext r0 radd). intros w Hw. apply (bsum_ext r0 radd). intros a Ha.
    rewrite bsum_prod. apply (bsum_ext r0 radd). intros w' Hw'. apply (bsum_ext r0 radd). intros a' Ha'. rewrite !enc_te by assumption.
    rewrite (aenv_pt rest NE (oa O) (ow O)) by assumption. reflexivity.
Qed.

(** Two tensors with the same elements. *)
Definition teq (t t' : tensor) : Prop := tl t = tl t' /\ tp t = tp t' /\ tr t = tr t' /\ forall a s b, a < tl t -> s < tp t -> b < tr t -> te t a s b = te t' a s b.
Lemma teq_refl t : teq t t. Proof. repeat split; auto. Qed.
Lemma chain_teq : forall ts ts', Forall2 teq ts ts' -> forall d c a b, linked d ts b -> a < d -> Forall2 lt c (sites ts) -> forall b', chain ts c a b' = chain ts' c a b'.
Proof.
  intros ts ts' H. induction H as [|t t' ts ts' (H1 & H2 & H3 & H4) H IH]; intros d c a b L Ha Hc b'; [reflexivity|].
  inversion Hc as [|s ? c' ? Hs Hc' E]; subst. destruct L as [<- L]. cbn [MpsSpec.chain]. rewrite <- H3. apply (bsum_ext r0 radd). intros e He.
  rewrite H4 by assumption. f_equal. apply (IH (tr t) c' e b); assumption.
Qed.
Lemma Forall2_teq_refl ts : Forall2 teq ts ts. Proof. induction ts; constructor; auto using teq_refl. Qed.
Lemma absorb_pt O x K m U : oa O = tr x -> ow O = kr K -> teq (enc (aabsorb r0 radd rmul O (x, K) m U)) (absorb r0 radd rmul (enc O) (pt (x, K)) m U).
Proof.
  intros Ha Hw. split; [reflexivity|]. split; [reflexivity|]. split; [reflexivity|].
  cbn [enc aabsorb absorb pt tl tp tr te oa ow op orr oj oe]. intros i s' q Hi Hs Hq. rewrite bsum_prod.
  transitivity (bsum (ow O) (fun v => bsum (oa O) (fun b => bsum (tp x) (fun s => te x (i mod tl x) s b * ke K (i / tl x) s s' v) * bsum (op O) (fun s'' => bsum (orr O) (fun k => U s'' k q * oe O b v s'' k))))).
  - both. pick 0. pick 1. pick 0. pick 0. pick 0. ring.
  - apply (bsum_ext r0 radd). intros v Hv. apply (bsum_ext r0 radd). intros b Hb. rewrite <- Ha, !pmod, !pdiv by assumption. reflexivity.
Qed.
Lemma adagU_enc O m U : adagU conj O m U = dagU conj (enc O) m U. Proof. reflexivity. Qed.

Context {Nm : Type}.
Context (diag : option nat -> nat -> nat -> @pmatrix R -> outcome (nat * (nat -> nat -> nat -> R))).
Hypothesis DOK : diag_ok r0 r1 radd rmul conj diag.
Hypothesis DEF : definite r0 radd rmul conj.
Context (invnorm : R -> R) (maxdim : option nat).
Notation aloop := (aloop r0 radd rmul conj diag invnorm maxdim).
Notation RO := (right_orth r0 r1 radd rmul conj).

Lemma aloop_ok rest : forall first O acc ts', linked 1 (rev (map fst rest)) (oa O) -> klinked 1 (rev (map snd rest)) (ow O) -> linked (orr O) acc 1 -> Forall RO acc ->
  aloop false first rest O acc = Ok ts' ->
  exists pre, ts' = pre ++ acc /\ length pre = S (length rest) /\ Forall RO (List.tl pre ++ acc) /\ linked 1 ts' 1 /\
    sites ts' = sites (rev (map pt rest) ++ enc O :: acc) /\
    (forall k t, k < length rest -> nth_error ts' k = Some t -> tj t = true) /\
    (forall t, nth_error ts' (length rest) = Some t -> tj t = oj O) /\
    ((forall q, maxdim = Some q -> (oa O * ow O <= q)%nat /\ Forall (fun p => (tl (fst p) * kl (snd p) <= q)%nat) rest) ->
     forall c, Forall2 lt c (sites (rev (map pt rest) ++ enc O :: acc)) -> chain ts' c 0 0 = chain (rev (map pt rest) ++ enc O :: acc) c 0 0).
Proof.
  induction rest as [|[x K] rest IH]; intros first O acc ts' L M LA RA H.
  { cbn in H. injection H as <-. cbn in L, M. exists [ofirst r0 radd rmul conj invnorm false O]. cbn [app length List.tl].
    split; [reflexivity|]. split; [reflexivity|]. split; [assumption|]. split; [split; auto|]. split; [reflexivity|].
    split; [intros; lia|]. split; [intros t' [= <-]; reflexivity|]. intros _ c Hc. cbn [rev map app] in *.
    apply (chain_teq _ _) with (d := 1) (b := 1); [|split; auto|lia|exact Hc]. constructor; [|apply Forall2_teq_refl].
    unfold enc. split; [cbn; lia|]. split; [reflexivity|]. split; [reflexivity|]. cbn [tl tp tr te ofirst]. intros a s b Ha _ _. replace a with 0%nat by lia.
    rewrite <- L. reflexivity. }
  pose proof (arho_pt ((x, K) :: rest) O ltac:(discriminate) L M) as RHO.
  assert (LP : linked 1 (rev (map pt ((x, K) :: rest))) (tl (enc O))).
  { rewrite <- map_rev in *. change (tl (enc O)) with (oa O * ow O)%nat. rewrite <- (Nat.mul_1_l 1). rewrite <- !map_rev in *. apply linked_pt; assumption. }
  cbn [ApplyModel.aloop] in H. set (mx := match maxdim with Some q => _ | None => _ end) in H.
  destruct (diag mx _ _ _) as [[m U]| |] eqn:E; cbn [obind] in H; try discriminate.
  assert (ISODG : isometry r0 r1 radd rmul conj (op O) (orr O) m U /\ ((forall q, mx = Some q -> rank_le r0 radd rmul q (op O) (orr O) (arho r0 radd rmul conj (aenv ((x, K) :: rest)) O)) ->
    diagonalises r0 radd rmul conj (op O) (orr O) m U (arho r0 radd rmul conj (aenv ((x, K) :: rest)) O))).
  { refine (DOK _ _ _ _ _ _ _ E). destruct (density_gram r0 r1 radd rmul rsub ropp conj RT conj0 conj1 conj_add conj_mul (map pt ((x, K) :: rest)) (enc O) ltac:(discriminate) LP) as (n & X & HX).
    exists n, X. intros s k s' k' h1 h2 h3 h4. rewrite RHO. now apply HX. }
  destruct ISODG as [ISO DG].
  pose proof L as L0. pose proof M as M0. cbn [map rev fst snd] in L, M. apply linked_app in L as (e & L1 & L2 & L3). apply klinked_app in M as (f & M1 & M2 & M3). cbn in L3, M3.
  set (A := aabsorb r0 radd rmul O (x, K) m U) in *.
  destruct (IH false A (adagU conj O m U :: acc) ts') as (pre & -> & Hl & Hro & Hlk & Hs & Hj & Hj' & HA).
  { cbn [A aabsorb oa]. rewrite L2. exact L1. }
  { cbn [A aabsorb ow]. rewrite M2. exact M1. }
  { cbn [A aabsorb orr adagU linked tl tr]. auto. }
  { constructor; [|assumption]. rewrite adagU_enc. apply (dagU_orth r0 r1 radd rmul rsub ropp conj RT conj_conj). assumption. }
  { exact H. }
  exists (pre ++ [adagU conj O m U]). rewrite <- app_assoc. cbn [app].
  split; [reflexivity|]. split; [rewrite app_length; cbn; lia|]. split.
  { destruct pre; [discriminate|]. cbn [List.tl app] in *. rewrite <- app_assoc. exact Hro. }
  split; [assumption|]. split; [|split; [|split]].
  - rewrite Hs. unfold MpsSpec.sites. rewrite !map_app. cbn [map tp enc A aabsorb adagU rev op]. rewrite map_app. cbn [map pt tp]. rewrite <- app_assoc. reflexivity.
  - intros k y Hk Hy. cbn [length] in Hk. destruct (Nat.eq_dec k (length rest)) as [->|N]; [now rewrite (Hj' y Hy)|]. apply (Hj k y); [lia|assumption].
  - intros y Hy. cbn [length] in Hy. rewrite nth_error_app2 in Hy by lia. rewrite Hl, Nat.sub_diag in Hy. injection Hy as <-. reflexivity.
  - intros WD c Hc.
    assert (Hc' : Forall2 lt c (sites (rev (map pt rest) ++ enc A :: adagU conj O m U :: acc))).
    { revert Hc. unfold MpsSpec.sites. cbn [map rev]. rewrite !map_app. cbn [map tp enc A aabsorb adagU op pt]. rewrite <- app_assoc. auto. }
    assert (LR : linked 1 (rev (map pt rest)) (tl x * kl K)).
    { rewrite <- map_rev, <- (Nat.mul_1_l 1). apply linked_pt; rewrite map_rev; congruence. }
    rewrite HA; [|intros q Eq; destruct (WD q Eq) as [W1 W2]; inversion W2; subst; split; assumption|exact Hc'].
    transitivity (chain (rev (map pt rest) ++ absorb r0 radd rmul (enc O) (pt (x, K)) m U :: dagU conj (enc O) m U :: acc) c 0 0).
    { apply chain_teq with (d := 1) (b := 1); [|apply linked_app; exists (tl x * kl K)%nat; split; [exact LR|]; cbn [linked enc tl tr A aabsorb oa ow orr adagU]; auto|lia|exact Hc'].
      apply Forall2_app; [apply Forall2_teq_refl|]. constructor; [now apply absorb_pt|]. constructor; [apply teq_refl|apply Forall2_teq_refl]. }
    apply (project_step r0 r1 radd rmul rsub ropp conj RT conj0 conj1 conj_add conj_mul DEF (map pt rest) (pt (x, K)) (enc O) acc m U c); try assumption.
    assert (RK : rank_le r0 radd rmul (oa O * ow O) (op O) (orr O) (arho r0 radd rmul conj (aenv ((x, K) :: rest)) O)).
    { destruct (density_rank r0 r1 radd rmul rsub ropp conj RT (env (map pt ((x, K) :: rest))) (enc O)) as (M' & N' & HMN). exists M', N'. intros s k s' k' h1 h2 h3 h4. rewrite RHO. now apply HMN. }
    destruct DG as (D & HD).
    + intros q Eq. unfold mx in Eq. destruct maxdim as [q0|] eqn:Em.
      * injection Eq as ->. destruct (WD q eq_refl) as [W1 W2]. clear - RK W1 RT. destruct RK as (M & N & HMN). set (d := (oa O * ow O)%nat) in *.
        exists (fun s k a => if a <? d then M s k a else r0), N. intros s k s' k' h1 h2 h3 h4. rewrite HMN by assumption.
        replace q with (d + (q - d))%nat by lia. rewrite (bsum_split r0 r1 radd rmul rsub ropp RT).
        rewrite (bsum_zero r0 r1 radd rmul rsub ropp RT (q - d)) by (intros i Hi; destruct (Nat.ltb_spec (d + i) d); [lia|ring]).
        match goal with |- _ = ?a + r0 => transitivity a; [|ring] end. apply bsum_ext. intros a Ha. destruct (Nat.ltb_spec a d); [reflexivity|lia].
      * destruct first; [discriminate|]. injection Eq as <-. exact RK.
    + exists D. intros s k s' k' h1 h2 h3 h4. change (pt (x, K) :: map pt rest) with (map pt ((x, K) :: rest)). rewrite <- RHO. now apply HD.
Qed.

Lemma aloop_total normalize rest : forall first O acc, linked 1 (rev (map fst rest)) (oa O) -> klinked 1 (rev (map snd rest)) (ow O) ->
  (forall mx p r rho, gram r0 radd rmul conj p r rho -> exists x, diag mx p r rho = Ok x) ->
  exists ts', aloop normalize first rest O acc = Ok ts'.
Proof.
  induction rest as [|[x K] rest IH]; intros first O acc L M TD; [eexists; reflexivity|]. cbn [ApplyModel.aloop].
  pose proof (arho_pt ((x, K) :: rest) O ltac:(discriminate) L M) as RHO.
  match goal with |- context [diag ?mx ?p ?r ?rho] => destruct (TD mx p r rho) as ([m U] & ->) end.
  { assert (LP : linked 1 (rev (map pt ((x, K) :: rest))) (tl (enc O))).
    { change (tl (enc O)) with (oa O * ow O)%nat. rewrite <- (Nat.mul_1_l 1). rewrite <- !map_rev in *. apply linked_pt; assumption. }
    destruct (density_gram r0 r1 radd rmul rsub ropp conj RT conj0 conj1 conj_add conj_mul (map pt ((x, K) :: rest)) (enc O) ltac:(discriminate) LP) as (n & X & HX).
    exists n, X. intros s k s' k' h1 h2 h3 h4. rewrite RHO. now apply HX. }
  cbn [obind]. cbn [map rev fst snd] in L, M. apply linked_app in L as (e & L1 & L2 & L3). apply klinked_app in M as (f & M1 & M2 & M3).
  apply IH; [| |assumption]; cbn [aabsorb oa ow]; congruence.
Qed.

(** Normalize rescales the first tensor and nothing else. *)
Definition rescaled (t : tensor) : tensor :=
  mkT (tl t) (tp t) (tr t) (tj t) (fun a s k => invnorm (bsum (tp t) (fun s => bsum (tr t) (fun k => conj (te t 0 s k) * te t 0 s k))) * te t 0 s k).
Lemma aloop_norm rest : forall first O acc,
  aloop true first rest O acc = let! ts := aloop false first rest O acc in Ok (match ts with t :: ts' => rescaled t :: ts' | [] => [] end).
Proof.
  induction rest as [|p rest IH]; intros first O acc; [reflexivity|]. cbn [ApplyModel.aloop].
  match goal with |- context [diag ?mx ?p ?r ?rho] => destruct (diag mx p r rho) as [[m U]| |] end; cbn [obind]; auto.
Qed.
Lemma aloop_nonempty rest : forall nz first O acc ts, aloop nz first rest O acc = Ok ts -> exists t ts', ts = t :: ts' /\ tl t = 1.
Proof.
  induction rest as [|p rest IH]; intros nz first O acc ts H; cbn [ApplyModel.aloop] in H; [injection H as <-; cbn; eauto|].
  match type of H with context [diag ?mx ?p ?r ?rho] => destruct (diag mx p r rho) as [[m U]| |] end; cbn [obind] in H; try discriminate. eauto.
Qed.

(** The chain of products is the operator applied to the state. *)
Lemma chain_pt : forall ts ks, length ks = length ts -> forall d e c' a w, linked d ts 1 -> klinked e ks 1 -> length c' = length ts -> a < d -> w < e ->
  chain (map pt (List.combine ts ks)) c' (a + d * w) 0 = csum (sites ts) (fun c => kchain ks c c' w 0 * chain ts c a 0).
Proof.
  induction ts as [|x ts IH]; intros [|K ks] LN d e c' a w L M LC Ha Hw; try discriminate.
  - cbn in L, M. subst d e. replace a with 0%nat by lia. replace w with 0%nat by lia. cbn. unfold BigSum.delta. cbn. ring.
  - destruct c' as [|s' c']; [discriminate|]. destruct L as [<- L], M as [<- M]. cbn [List.combine map MpsSpec.chain].
    change (sites (x :: ts)) with (tp x :: sites ts). cbn [BigSum.csum ApplySpec.kchain MpsSpec.chain].
    change (tr (pt (x, K))) with (tr x * kr K)%nat. rewrite bsum_prod.
    transitivity (bsum (kr K) (fun v => bsum (tr x) (fun b => bsum (tp x) (fun s => te x a s b * ke K w s s' v) * csum (sites ts) (fun c => kchain ks c c' v 0 * chain ts c b 0)))).
    + apply (bsum_ext r0 radd). intros v Hv. apply (bsum_ext r0 radd). intros b Hb. rewrite pt_te by assumption. f_equal. apply (IH ks ltac:(cbn in LN; lia) (tr x) (kr K)); try assumption. cbn in LC; lia.
    + both. pick 2. pick 2. pick 0. pick 0. ring.
Qed.
Lemma amplitude_pt ts ks c' : length ks = length ts -> proper ts -> kproper ks -> length c' = length ts ->
  amplitude r0 r1 radd rmul (map pt (List.combine ts ks)) c' = applied r0 r1 radd rmul ks ts c'.
Proof. intros LN P Q LC. unfold amplitude, applied, element. exact (chain_pt ts ks LN 1 1 c' 0 0 P Q LC ltac:(lia) ltac:(lia)). Qed.
End ApplyProofs.
