(** What the edge tensors and the local product mean: sums over all configurations. *)
From Coq Require Import ZArith List Bool Arith Lia Ring.
From Verif Require Import Util BigSum MpsModel MpsTensor MpsSpec MpsProofs LocalModel LocalSpec LocalTensor LocalMeaning.
Import ListNotations.
Local Open Scope outcome_scope.

Section LocalSem.
Context {R : Type} (r0 r1 : R) (radd rmul rsub : R -> R -> R) (ropp : R -> R) (conj : R -> R).
Context (RT : ring_theory r0 r1 radd rmul rsub ropp eq).
Hypothesis conj0 : conj r0 = r0.
Hypothesis conj1 : conj r1 = r1.
Hypothesis conj_add : forall x y, conj (radd x y) = radd (conj x) (conj y).
Hypothesis conj_mul : forall x y, conj (rmul x y) = rmul (conj x) (conj y).
Add Ring RRls : RT.
Notation tensor := (@tensor R).
Notation wten := (wten R).
Notation edge := (@edge R).
Notation bsum := (bsum r0 radd).
Notation csum := (csum r0 radd).
Notation chain := (chain r0 r1 radd rmul).
Notation delta := (delta r0 r1).
Notation wchain := (wchain r0 r1 radd rmul).
Notation insert := (insert r0 r1 radd rmul).
Notation matrix_element := (matrix_element r0 r1 radd rmul conj).
Notation energy := (energy r0 r1 radd rmul conj).
Notation stepL := (stepL r0 radd rmul conj).
Notation stepR := (stepR r0 radd rmul conj).
Notation "x + y" := (radd x y). Notation "x * y" := (rmul x y).

(** The part of <psi|H|psi> to the left of a bond, and to the right. *)
Definition left_part (ts : list tensor) (ws : list wten) (a w a' : nat) : R :=
  csum (sites ts) (fun c => csum (sites ts) (fun c' => chain ts c 0 a * wchain ws c c' 0 w * conj (chain ts c' 0 a'))).
Definition right_part (ts : list tensor) (ws : list wten) (b v b' : nat) : R :=
  csum (sites ts) (fun c => csum (sites ts) (fun c' => chain ts c b 0 * wchain ws c c' v 0 * conj (chain ts c' b' 0))).
(** * Sums over lists *)
Fixpoint lsum {A} (l : list A) (f : A -> R) : R := match l with [] => r0 | x :: l' => f x + lsum l' f end.
Fixpoint confs (dims : list nat) : list (list nat) :=
  match dims with [] => [[]] | p :: ps => flat_map (fun s => map (cons s) (confs ps)) (seq 0 p) end.
Lemma lsum_ext : forall {A} (l : list A) f g, (forall x, In x l -> f x = g x) -> lsum l f = lsum l g.
Proof. induction l as [|x l IH]; intros f g H; cbn [lsum]; [reflexivity|]. rewrite (H x) by (left; reflexivity). rewrite (IH f g); [reflexivity|]. intros. apply H. right. assumption. Qed.
Lemma lsum_app : forall {A} (l1 l2 : list A) f, lsum (l1 ++ l2) f = lsum l1 f + lsum l2 f.
Proof. induction l1 as [|x l IH]; intros l2 f; cbn [lsum app]; [ring|]. rewrite IH. ring. Qed.
Lemma lsum_map : forall {A B} (g : A -> B) l f, lsum (map g l) f = lsum l (fun x => f (g x)).
Proof. induction l as [|x l IH]; intros f; cbn [lsum map]; [reflexivity|]. rewrite IH. reflexivity. Qed.
Lemma lsum_flat : forall {A B} (g : A -> list B) l f, lsum (flat_map g l) f = lsum l (fun x => lsum (g x) f).
Proof. induction l as [|x l IH]; intros f; cbn [lsum flat_map]; [reflexivity|]. rewrite lsum_app, IH. reflexivity. Qed.
Lemma lsum_zero : forall {A} (l : list A) (f : A -> R), (forall x, In x l -> f x = r0) -> lsum l f = r0.
Proof. induction l as [|x l IH]; intros f H; cbn [lsum]; [reflexivity|]. rewrite H by (left; reflexivity). rewrite IH by (intros; apply H; right; assumption). ring. Qed.
Lemma lsum_add : forall {A} (l : list A) f g, lsum l (fun x => f x + g x) = lsum l f + lsum l g.
Proof. induction l as [|x l IH]; intros f g; cbn [lsum]; [ring|]. rewrite IH. ring. Qed.
Lemma lsum_swap : forall {A B} (l : list A) (m : list B) f, lsum l (fun x => lsum m (fun y => f x y)) = lsum m (fun y => lsum l (fun x => f x y)).
Proof.
  induction l as [|x l IH]; intros m f; cbn [lsum]; [symmetry; apply lsum_zero; reflexivity|]. rewrite IH, <- lsum_add. reflexivity.
Qed.
Lemma lsum_mul_l : forall {A} (l : list A) k f, k * lsum l f = lsum l (fun x => k * f x).
Proof. induction l as [|x l IH]; intros k f; cbn [lsum]; [ring|]. rewrite <- IH. ring. Qed.
Lemma lsum_mul_r : forall {A} (l : list A) k f, lsum l f * k = lsum l (fun x => f x * k).
Proof. induction l as [|x l IH]; intros k f; cbn [lsum]; [ring|]. rewrite <- IH. ring. Qed.
Lemma lsum_conj : forall {A} (l : list A) f, conj (lsum l f) = lsum l (fun x => conj (f x)).
Proof. induction l as [|x l IH]; intros f; cbn [lsum]; [exact conj0|]. rewrite conj_add, IH. reflexivity. Qed.
Lemma bsum_lsum : forall n f, bsum n f = lsum (seq 0 n) f.
Proof. induction n as [|n IH]; intros f; cbn [BigSum.bsum]; [reflexivity|]. rewrite IH, seq_S, lsum_app. cbn [lsum]. rewrite Nat.add_0_l. ring. Qed.
Lemma csum_lsum : forall dims f, csum dims f = lsum (confs dims) f.
Proof.
  induction dims as [|p ps IH]; intros f; cbn [BigSum.csum confs lsum]; [ring|]. rewrite lsum_flat, bsum_lsum. apply lsum_ext. intros s _. rewrite IH, lsum_map. reflexivity.
Qed.
Lemma in_confs : forall dims c, In c (confs dims) -> Forall2 lt c dims.
Proof.
  induction dims as [|p ps IH]; intros c H; cbn in H; [destruct H as [<-|[]]; constructor|]. apply in_flat_map in H. destruct H as (s & Hs & H).
  apply in_map_iff in H. destruct H as (c' & <- & H). apply in_seq in Hs. constructor; [lia|]. apply IH. exact H.
Qed.
Lemma conf_len : forall dims c, In c (confs dims) -> length c = length dims.
Proof. intros dims c H. apply in_confs in H. induction H; cbn; congruence. Qed.

(** Bringing a nested sum to the outside. *)
Lemma br1 : forall {A B} (l : list A) (m : list B) f, lsum l (fun x => lsum m (fun y => f x y)) = lsum m (fun y => lsum l (fun x => f x y)).
Proof. intros. apply lsum_swap. Qed.
Lemma br2 : forall {A1 A2 B} (l1 : list A1) (l2 : list A2) (m : list B) f,
  lsum l1 (fun x1 => lsum l2 (fun x2 => lsum m (fun y => f x1 x2 y))) = lsum m (fun y => lsum l1 (fun x1 => lsum l2 (fun x2 => f x1 x2 y))).
Proof. intros. etransitivity; [apply lsum_ext; intros; apply br1|apply lsum_swap]. Qed.
Lemma br3 : forall {A1 A2 A3 B} (l1 : list A1) (l2 : list A2) (l3 : list A3) (m : list B) f,
  lsum l1 (fun x1 => lsum l2 (fun x2 => lsum l3 (fun x3 => lsum m (fun y => f x1 x2 x3 y)))) = lsum m (fun y => lsum l1 (fun x1 => lsum l2 (fun x2 => lsum l3 (fun x3 => f x1 x2 x3 y)))).
Proof. intros. etransitivity; [apply lsum_ext; intros; apply br2|apply lsum_swap]. Qed.
Lemma br4 : forall {A1 A2 A3 A4 B} (l1 : list A1) (l2 : list A2) (l3 : list A3) (l4 : list A4) (m : list B) f,
  lsum l1 (fun x1 => lsum l2 (fun x2 => lsum l3 (fun x3 => lsum l4 (fun x4 => lsum m (fun y => f x1 x2 x3 x4 y))))) =
  lsum m (fun y => lsum l1 (fun x1 => lsum l2 (fun x2 => lsum l3 (fun x3 => lsum l4 (fun x4 => f x1 x2 x3 x4 y))))).
Proof. intros. etransitivity; [apply lsum_ext; intros; apply br3|apply lsum_swap]. Qed.
Lemma br5 : forall {A1 A2 A3 A4 A5 B} (l1 : list A1) (l2 : list A2) (l3 : list A3) (l4 : list A4) (l5 : list A5) (m : list B) f,
  lsum l1 (fun x1 => lsum l2 (fun x2 => lsum l3 (fun x3 => lsum l4 (fun x4 => lsum l5 (fun x5 => lsum m (fun y => f x1 x2 x3 x4 x5 y)))))) =
  lsum m (fun y => lsum l1 (fun x1 => lsum l2 (fun x2 => lsum l3 (fun x3 => lsum l4 (fun x4 => lsum l5 (fun x5 => f x1 x2 x3 x4 x5 y)))))).
Proof. intros. etransitivity; [apply lsum_ext; intros; apply br4|apply lsum_swap]. Qed.
Lemma br6 : forall {A1 A2 A3 A4 A5 A6 B} (l1 : list A1) (l2 : list A2) (l3 : list A3) (l4 : list A4) (l5 : list A5) (l6 : list A6) (m : list B) f,
  lsum l1 (fun x1 => lsum l2 (fun x2 => lsum l3 (fun x3 => lsum l4 (fun x4 => lsum l5 (fun x5 => lsum l6 (fun x6 => lsum m (fun y => f x1 x2 x3 x4 x5 x6 y))))))) =
  lsum m (fun y => lsum l1 (fun x1 => lsum l2 (fun x2 => lsum l3 (fun x3 => lsum l4 (fun x4 => lsum l5 (fun x5 => lsum l6 (fun x6 => f x1 x2 x3 x4 x5 x6 y))))))).
Proof. intros. etransitivity; [apply lsum_ext; intros; apply br5|apply lsum_swap]. Qed.
Lemma br7 : forall {A1 A2 A3 A4 A5 A6 A7 B} (l1 : list A1) (l2 : list A2) (l3 : list A3) (l4 : list A4) (l5 : list A5) (l6 : list A6) (l7 : list A7) (m : list B) f,
  lsum l1 (fun x1 => lsum l2 (fun x2 => lsum l3 (fun x3 => lsum l4 (fun x4 => lsum l5 (fun x5 => lsum l6 (fun x6 => lsum l7 (fun x7 => lsum m (fun y => f x1 x2 x3 x4 x5 x6 x7 y)))))))) =
  lsum m (fun y => lsum l1 (fun x1 => lsum l2 (fun x2 => lsum l3 (fun x3 => lsum l4 (fun x4 => lsum l5 (fun x5 => lsum l6 (fun x6 => lsum l7 (fun x7 => f x1 x2 x3 x4 x5 x6 x7 y)))))))).
Proof. intros. etransitivity; [apply lsum_ext; intros; apply br6|apply lsum_swap]. Qed.

Lemma mul_cong : forall a a' b b' c, a = a' -> b = b' -> a' * b' = c -> a * b = c.
Proof. intros; subst; reflexivity. Qed.
Lemma conj_cong : forall a a' c, a = a' -> conj a' = c -> conj a = c.
Proof. intros; subst; reflexivity. Qed.

(** Push products under sums: turns the left side of an equation [e = ?x] into nested sums of products. *)
Ltac nmul :=
  lazymatch goal with
  | |- lsum _ _ * _ = _ => etransitivity; [apply lsum_mul_r|]; eapply lsum_ext; intros; nmul
  | |- _ * lsum _ _ = _ => etransitivity; [apply lsum_mul_l|]; eapply lsum_ext; intros; nmul
  | |- _ => reflexivity
  end.
Ltac nconj :=
  lazymatch goal with
  | |- conj (lsum _ _) = _ => etransitivity; [apply lsum_conj|]; eapply lsum_ext; intros; nconj
  | |- conj (_ * _) = _ => etransitivity; [apply conj_mul|]; eapply mul_cong; [nconj|nconj|reflexivity]
  | |- _ => reflexivity
  end.
Ltac norm :=
  lazymatch goal with
  | |- bsum _ _ = _ => etransitivity; [apply bsum_lsum|]; eapply lsum_ext; intros; norm
  | |- csum _ _ = _ => etransitivity; [apply csum_lsum|]; eapply lsum_ext; intros; norm
  | |- lsum _ _ = _ => eapply lsum_ext; intros; norm
  | |- _ * _ = _ => eapply mul_cong; [norm|norm|nmul]
  | |- conj _ = _ => eapply conj_cong; [norm|nconj]
  | |- _ => reflexivity
  end.
Ltac both := etransitivity; [norm|]; symmetry; etransitivity; [norm|]; symmetry.
(** Take the k-th sum of the right side out and strip one sum on both sides. *)
Ltac pick k :=
  (lazymatch k with
   | 0 => idtac
   | 1 => etransitivity; [|symmetry; apply br1] | 2 => etransitivity; [|symmetry; apply br2]
   | 3 => etransitivity; [|symmetry; apply br3] | 4 => etransitivity; [|symmetry; apply br4]
   | 5 => etransitivity; [|symmetry; apply br5] | 6 => etransitivity; [|symmetry; apply br6]
   | 7 => etransitivity; [|symmetry; apply br7] end); apply lsum_ext; intros.


Lemma lin1 : forall n i, In i (seq 0 n) -> i < n. Proof. intros n i H. apply in_seq in H. lia. Qed.

(** * Chains *)
Lemma wchain_app : forall ws1 c1 c1' ws2 c2 c2' d1 d2 a b,
  wlinked d1 ws1 d2 -> length c1 = length ws1 -> length c1' = length ws1 -> a < d1 ->
  wchain (ws1 ++ ws2) (c1 ++ c2) (c1' ++ c2') a b = bsum d2 (fun e => wchain ws1 c1 c1' a e * wchain ws2 c2 c2' e b).
Proof.
  induction ws1 as [|W ws1 IH]; intros c1 c1' ws2 c2 c2' d1 d2 a b L E1 E2 Ha.
  - destruct c1; [|discriminate]. destruct c1'; [|discriminate]. cbn in L. subst d2. cbn [app wchain].
    symmetry. rewrite (bsum_delta r0 r1 radd rmul rsub ropp RT _ a (fun e => wchain ws2 c2 c2' e b)) by exact Ha. reflexivity.
  - destruct c1 as [|s c1]; [discriminate|]. destruct c1' as [|s' c1']; [discriminate|]. destruct L as (L1 & L2). cbn [app wchain].
    transitivity (bsum (wtr W) (fun u => wte W a s s' u * bsum d2 (fun e => wchain ws1 c1 c1' u e * wchain ws2 c2 c2' e b))).
    + apply (bsum_ext r0 radd). intros u Hu. rewrite (IH c1 c1' ws2 c2 c2' (wtr W) d2 u b) by (auto; cbn in *; lia). reflexivity.
    + both. pick 1. pick 0. ring.
Qed.
Lemma delta_sum : forall n i (f : nat -> R), i < n -> bsum n (fun j => f j * delta j i) = f i.
Proof.
  intros n i f H. rewrite <- (bsum_delta r0 r1 radd rmul rsub ropp RT n i f H) at 1. apply (bsum_ext r0 radd). intros j _. unfold BigSum.delta.
  rewrite (Nat.eqb_sym j i). ring.
Qed.
Lemma chain_one : forall (t : tensor) s a b, b < tr t -> chain [t] [s] a b = te t a s b.
Proof. intros t s a b H. cbn [MpsSpec.chain]. rewrite (delta_sum (tr t) b (fun e => te t a s e)) by exact H. reflexivity. Qed.
Lemma wchain_one : forall (W : wten) s s' a b, b < wtr W -> wchain [W] [s] [s'] a b = wte W a s s' b.
Proof. intros W s s' a b H. cbn [wchain]. rewrite (delta_sum (wtr W) b (fun e => wte W a s s' e)) by exact H. reflexivity. Qed.

Lemma sites_app : forall ts1 ts2 : list tensor, sites (ts1 ++ ts2) = sites ts1 ++ sites ts2.
Proof. intros. unfold sites. apply map_app. Qed.
Lemma csum_snoc : forall dims p f, csum (dims ++ [p]) f = lsum (confs dims) (fun c => lsum (seq 0 p) (fun s => f (c ++ [s]))).
Proof.
  intros dims p f. rewrite (csum_app r0 radd), csum_lsum. apply lsum_ext. intros c _. cbn [BigSum.csum]. rewrite bsum_lsum. reflexivity.
Qed.

(** One more site on the left block. *)
Lemma left_snoc : forall ts ws t W d b v b',
  linked 1 ts (tl t) -> wlinked 1 ws (wtl W) -> length ws = length ts -> d = wtl W ->
  b < tr t -> v < wtr W -> b' < tr t ->
  left_part (ts ++ [t]) (ws ++ [W]) b v b' = edge_right r0 radd rmul conj W (Some (left_part ts ws)) t b v b'.
Proof.
  intros ts ws t W d b v b' Lt Lw Len Hd Hb Hv Hb'. unfold edge_right.
  transitivity (lsum (confs (sites ts)) (fun c => lsum (seq 0 (tp t)) (fun s => lsum (confs (sites ts)) (fun c' => lsum (seq 0 (tp t)) (fun s' =>
    bsum (tl t) (fun a => chain ts c 0 a * te t a s b) * bsum (wtl W) (fun w => wchain ws c c' 0 w * wte W w s s' v)
     * conj (bsum (tl t) (fun a' => chain ts c' 0 a' * te t a' s' b'))))))).
  { unfold left_part. rewrite sites_app. change (sites [t]) with [tp t]. rewrite csum_snoc. apply lsum_ext; intros c Hc. apply lsum_ext; intros s Hs.
    rewrite csum_snoc. apply lsum_ext; intros c' Hc'. apply lsum_ext; intros s' Hs'.
    apply conf_len in Hc. apply conf_len in Hc'. unfold sites in Hc, Hc'. rewrite map_length in Hc, Hc'.
    rewrite (chain_app r0 r1 radd rmul rsub ropp RT ts c [t] [s] 1 (tl t)) by (auto; lia).
    rewrite (chain_app r0 r1 radd rmul rsub ropp RT ts c' [t] [s'] 1 (tl t)) by (auto; lia).
    rewrite (wchain_app ws c c' [W] [s] [s'] 1 (wtl W)) by (auto; lia).
    f_equal; [f_equal|f_equal]; apply (bsum_ext r0 radd); intros e He.
    - rewrite chain_one by exact Hb. reflexivity.
    - rewrite wchain_one by exact Hv. reflexivity.
    - rewrite chain_one by exact Hb'. reflexivity. }
  unfold left_part. etransitivity; [norm|]. symmetry. etransitivity; [norm|]. symmetry.
  (* left: c s c' s' a w a' ; right: a' s' w s a c c' *)
  pick 5. pick 3. pick 4. pick 1. pick 2. pick 1. pick 0. ring.
Qed.

Lemma right_cons : forall ts ws t W a w a',
  right_part (t :: ts) (W :: ws) a w a' = edge_left r0 radd rmul conj W (Some (right_part ts ws)) t a w a'.
Proof.
  intros ts ws t W a w a'. unfold edge_left, right_part. cbn [sites map BigSum.csum].
  change (map (@tp R) ts) with (sites ts). cbn [MpsSpec.chain wchain]. both.
  pick 3. pick 4. pick 1. pick 3. pick 2. pick 1. pick 0. ring.
Qed.

Definition edge_val (e : option edge) : edge := match e with Some e => e | None => fun _ _ _ => r1 end.
Lemma left_nil : left_part [] [] 0 0 0 = r1.
Proof. unfold left_part. cbn. rewrite conj1. ring. Qed.
Lemma right_nil : right_part [] [] 0 0 0 = r1.
Proof. unfold right_part. cbn. rewrite conj1. ring. Qed.
Lemma edge_right_ext : forall W e e' (t : tensor) b v b',
  (forall a w a', a < tl t -> w < wtl W -> a' < tl t -> e a w a' = e' a w a') ->
  edge_right r0 radd rmul conj W (Some e) t b v b' = edge_right r0 radd rmul conj W (Some e') t b v b'.
Proof.
  intros W e e' t b v b' H. unfold edge_right. apply (bsum_ext r0 radd); intros a' Ha'. apply (bsum_ext r0 radd); intros s' Hs'. f_equal.
  apply (bsum_ext r0 radd); intros w Hw. apply (bsum_ext r0 radd); intros s Hs. f_equal. apply (bsum_ext r0 radd); intros a Ha. rewrite H by assumption. reflexivity.
Qed.
Lemma edge_left_ext : forall W e e' (t : tensor) a w a',
  (forall b v b', b < tr t -> v < wtr W -> b' < tr t -> e b v b' = e' b v b') ->
  edge_left r0 radd rmul conj W (Some e) t a w a' = edge_left r0 radd rmul conj W (Some e') t a w a'.
Proof.
  intros W e e' t a w a' H. unfold edge_left. apply (bsum_ext r0 radd); intros b' Hb'. apply (bsum_ext r0 radd); intros s' Hs'. f_equal.
  apply (bsum_ext r0 radd); intros v Hv. apply (bsum_ext r0 radd); intros s Hs. f_equal. apply (bsum_ext r0 radd); intros b Hb. rewrite H by assumption. reflexivity.
Qed.
Lemma b1 : forall f : nat -> R, bsum 1 f = f 0.
Proof. intros f. cbn. ring. Qed.
Lemma edge_right_none : forall W (t : tensor) b v b', tl t = 1 -> wtl W = 1 ->
  edge_right r0 radd rmul conj W None t b v b' = edge_right r0 radd rmul conj W (Some (edge_val None)) t b v b'.
Proof.
  intros W t b v b' Ht HW. unfold edge_right, edge_val. rewrite Ht, HW, b1. apply (bsum_ext r0 radd); intros s' Hs'. f_equal. rewrite b1.
  apply (bsum_ext r0 radd); intros s Hs. rewrite b1. ring.
Qed.
Lemma edge_left_none : forall W (t : tensor) b v b', tr t = 1 -> wtr W = 1 ->
  edge_left r0 radd rmul conj W None t b v b' = edge_left r0 radd rmul conj W (Some (edge_val None)) t b v b'.
Proof.
  intros W t b v b' Ht HW. unfold edge_left, edge_val. rewrite Ht, HW, b1. apply (bsum_ext r0 radd); intros s' Hs'. f_equal. rewrite b1.
  apply (bsum_ext r0 radd); intros s Hs. rewrite b1. ring.
Qed.

(** * The edge tensors of LocalSpec are the two parts of <psi|H|psi> *)
Lemma seg_S : forall {A} (f : Z -> A) i n, seg f i (S n) = seg f i n ++ [f (i + Z.of_nat n)%Z].
Proof. intros. unfold seg. rewrite seq_S, map_app. reflexivity. Qed.
Lemma seg_cons : forall {A} (f : Z -> A) i n, seg f i (S n) = f i :: seg f (i + 1)%Z n.
Proof.
  intros. unfold seg. cbn [seq map]. f_equal; [f_equal; lia|]. rewrite <- seq_shift, map_map. apply map_ext. intros k. f_equal. lia.
Qed.
Lemma seg_len : forall {A} (f : Z -> A) i n, length (seg f i n) = n.
Proof. intros. unfold seg. rewrite map_length, seq_length. reflexivity. Qed.
Lemma seg_app : forall {A} (f : Z -> A) m i n, seg f i (m + n)%nat = seg f i m ++ seg f (i + Z.of_nat m)%Z n.
Proof.
  induction m as [|m IH]; intros i n; [cbn [Nat.add]; replace (i + Z.of_nat 0)%Z with i by lia; reflexivity|].
  cbn [Nat.add]. rewrite !seg_cons, IH. cbn [app]. do 3 f_equal. lia.
Qed.
Lemma wlinked_app : forall (ws1 ws2 : list wten) a b, wlinked a (ws1 ++ ws2) b <-> exists m, wlinked a ws1 m /\ wlinked m ws2 b.
Proof.
  induction ws1 as [|W ws1 IH]; intros ws2 a b; cbn.
  - split; [intros H; eexists; eauto|intros (m & -> & H); assumption].
  - rewrite IH. split.
    + intros (H1 & m & H2 & H3). exists m. auto.
    + intros (m & (H1 & H2) & H3). eauto.
Qed.

Lemma env_left : forall (ws : Z -> wten) (psi : Z -> tensor) k dl dw,
  linked 1 (seg psi 1 k) dl -> wlinked 1 (seg ws 1 k) dw ->
  forall a w a', a < dl -> w < dw -> a' < dl ->
  edge_val (envL_n (stepL ws) None 0 psi k) a w a' = left_part (seg psi 1 k) (seg ws 1 k) a w a'.
Proof.
  intros ws psi. induction k as [|k IH]; intros dl dw Lt Lw a w a' Ha Hw Ha'.
  - cbn in Lt, Lw. subst. assert (a = 0) as -> by lia. assert (w = 0) as -> by lia. assert (a' = 0) as -> by lia.
    change (seg psi 1 0) with (@nil tensor). change (seg ws 1 0) with (@nil wten). rewrite left_nil. reflexivity.
  - rewrite seg_S in Lt. rewrite seg_S in Lw. rewrite !seg_S.
    apply (linked_app) in Lt. destruct Lt as (m & Lt & (L1 & L2)). cbn in L2.
    apply wlinked_app in Lw. destruct Lw as (mw & Lw & (W1 & W2)). cbn in W2. subst dl dw. subst m mw.
    rewrite (left_snoc _ _ _ _ _ _ _ _ Lt Lw) by (rewrite ?seg_len; auto).
    cbn [envL_n edge_val]. unfold stepL. replace (0 + Z.of_nat (S k))%Z with (1 + Z.of_nat k)%Z by lia.
    destruct k as [|k].
    + cbn in Lt, Lw. cbn [envL_n]. rewrite edge_right_none by auto. apply edge_right_ext. intros x y z Hx Hy Hz.
      rewrite <- (IH _ _ Lt Lw) by assumption. reflexivity.
    + cbn [envL_n]. apply edge_right_ext. intros x y z Hx Hy Hz. rewrite <- (IH _ _ Lt Lw) by assumption. reflexivity.
Qed.
Lemma env_right : forall (ws : Z -> wten) (psi : Z -> tensor) r k dr dv,
  linked dr (seg psi (r - Z.of_nat k) k) 1 -> wlinked dv (seg ws (r - Z.of_nat k) k) 1 ->
  forall b v b', b < dr -> v < dv -> b' < dr ->
  edge_val (envR_n (stepR ws) None r psi k) b v b' = right_part (seg psi (r - Z.of_nat k) k) (seg ws (r - Z.of_nat k) k) b v b'.
Proof.
  intros ws psi r. induction k as [|k IH]; intros dr dv Lt Lw b v b' Hb Hv Hb'.
  - cbn in Lt, Lw. subst. assert (b = 0) as -> by lia. assert (v = 0) as -> by lia. assert (b' = 0) as -> by lia.
    change (seg psi (r - Z.of_nat 0) 0) with (@nil tensor). change (seg ws (r - Z.of_nat 0) 0) with (@nil wten). rewrite right_nil. reflexivity.
  - rewrite seg_cons in Lt. rewrite seg_cons in Lw. rewrite !seg_cons. rewrite right_cons.
    replace (r - Z.of_nat (S k) + 1)%Z with (r - Z.of_nat k)%Z in * by lia.
    destruct Lt as (L1 & Lt). destruct Lw as (W1 & Lw). subst dr dv.
    cbn [envR_n edge_val]. unfold stepR.
    destruct k as [|k].
    + cbn in Lt, Lw. cbn [envR_n]. rewrite edge_left_none by auto. apply edge_left_ext. intros x y z Hx Hy Hz.
      rewrite <- (IH _ _ Lt Lw) by assumption. reflexivity.
    + apply edge_left_ext. intros x y z Hx Hy Hz. rewrite <- (IH _ _ Lt Lw) by assumption. reflexivity.
Qed.

(** * The local product *)
Definition effective (ws : list wten) (dl dw dv dr : nat) (L Rt : edge) (phi : nat -> list nat -> nat -> R) (a' : nat) (c' : list nat) (b' : nat) : R :=
  bsum dl (fun a => bsum dw (fun w => bsum dv (fun v => bsum dr (fun b => csum (wsites ws) (fun c =>
    L a w a' * phi a c b * wchain ws c c' w v * Rt b v b'))))).
Lemma l1 : forall f : nat -> R, lsum (seq 0 1) f = f 0.
Proof. intros f. cbn. ring. Qed.
Ltac unit_out := etransitivity; [|symmetry; apply l1].

Lemma eff0 : forall dl dw dr L Rt phi a' b',
  effective [] dl dw dw dr L Rt phi a' [] b' = bsum dl (fun a => bsum dw (fun w => bsum dr (fun b => L a w a' * phi a [] b * Rt b w b'))).
Proof.
  intros. unfold effective. cbn [wsites map BigSum.csum wchain].
  apply (bsum_ext r0 radd); intros a Ha. apply (bsum_ext r0 radd); intros w Hw.
  rewrite <- (bsum_delta r0 r1 radd rmul rsub ropp RT dw w (fun v => bsum dr (fun b => L a w a' * phi a [] b * Rt b v b')) Hw).
  both. apply lsum_ext; intros v Hv. apply lsum_ext; intros b Hb. ring.
Qed.
Lemma eff1 : forall W dl dr L Rt phi a' s' b',
  effective [W] dl (wtl W) (wtr W) dr L Rt phi a' [s'] b' =
  bsum dl (fun a => bsum (wtl W) (fun w => bsum (wtr W) (fun v => bsum dr (fun b => bsum (wtp W) (fun s => L a w a' * phi a [s] b * wte W w s s' v * Rt b v b'))))).
Proof.
  intros. unfold effective. cbn [wsites map BigSum.csum].
  apply (bsum_ext r0 radd); intros a Ha. apply (bsum_ext r0 radd); intros w Hw. apply (bsum_ext r0 radd); intros v Hv. apply (bsum_ext r0 radd); intros b Hb. apply (bsum_ext r0 radd); intros s Hs.
  rewrite wchain_one by exact Hv. reflexivity.
Qed.
Lemma eff2 : forall W1 W2 dl dr L Rt phi a' s1' s2' b',
  effective [W1; W2] dl (wtl W1) (wtr W2) dr L Rt phi a' [s1'; s2'] b' =
  bsum dl (fun a => bsum (wtl W1) (fun w => bsum (wtr W2) (fun v => bsum dr (fun b => bsum (wtp W1) (fun s1 => bsum (wtp W2) (fun s2 => bsum (wtr W1) (fun u =>
    L a w a' * phi a [s1; s2] b * (wte W1 w s1 s1' u * wte W2 u s2 s2' v) * Rt b v b'))))))).
Proof.
  intros. unfold effective. cbn [wsites map BigSum.csum].
  apply (bsum_ext r0 radd); intros a Ha. apply (bsum_ext r0 radd); intros w Hw. apply (bsum_ext r0 radd); intros v Hv. apply (bsum_ext r0 radd); intros b Hb.
  apply (bsum_ext r0 radd); intros s1 Hs1. apply (bsum_ext r0 radd); intros s2 Hs2.
  change (wchain [W1; W2] [s1; s2] [s1'; s2'] w v) with (bsum (wtr W1) (fun u => wte W1 w s1 s1' u * wchain [W2] [s2] [s2'] u v)).
  transitivity (L a w a' * phi a [s1; s2] b * bsum (wtr W1) (fun u => wte W1 w s1 s1' u * wte W2 u s2 s2' v) * Rt b v b').
  - f_equal. f_equal. apply (bsum_ext r0 radd); intros u Hu. rewrite wchain_one by exact Hv. reflexivity.
  - both. reflexivity.
Qed.

Lemma local0_ok : forall L Rt dl dw dr phi, (L = None -> dl = 1 /\ dw = 1) -> (Rt = None -> dr = 1 /\ dw = 1) -> (L <> None \/ Rt <> None) ->
  exists f, local0 r0 radd rmul L Rt dl dw dr (fun a b => phi a [] b) = Ok f /\
    forall a' b', a' < dl -> b' < dr -> f a' b' = effective [] dl dw dw dr (edge_val L) (edge_val Rt) phi a' [] b'.
Proof.
  intros L Rt dl dw dr phi HL HR HB. destruct L as [l|], Rt as [q|]; try (destruct HB; congruence);
    eexists; (split; [reflexivity|]); intros a' b' Ha Hb; rewrite eff0; cbn [edge_val].
  - both. pick 1. pick 1. pick 0. ring.
  - destruct (HR eq_refl) as (-> & ->). assert (b' = 0) as -> by lia. both. pick 0. unit_out. unit_out. ring.
  - destruct (HL eq_refl) as (-> & ->). assert (a' = 0) as -> by lia. both. unit_out. unit_out. pick 0. ring.
Qed.
Lemma local1_ok : forall L Rt W dl dr phi, (L = None -> dl = 1 /\ wtl W = 1) -> (Rt = None -> dr = 1 /\ wtr W = 1) -> (L <> None \/ Rt <> None) ->
  exists f, local1 r0 radd rmul L Rt W dl dr (fun a s b => phi a [s] b) = Ok f /\
    forall a' s' b', a' < dl -> b' < dr -> f a' s' b' = effective [W] dl (wtl W) (wtr W) dr (edge_val L) (edge_val Rt) phi a' [s'] b'.
Proof.
  intros L Rt W dl dr phi HL HR HB. destruct L as [l|], Rt as [q|]; try (destruct HB; congruence);
    eexists; (split; [reflexivity|]); intros a' s' b' Ha Hb; rewrite eff1; cbn [edge_val]; cbv zeta.
  - both. (* v b s w a | a w v b s *) pick 2. pick 2. pick 2. pick 1. pick 0. ring.
  - destruct (HR eq_refl) as (-> & ->). assert (b' = 0) as -> by lia. both. (* s w a | a w v b s *)
    pick 4. pick 1. pick 0. unit_out. unit_out. ring.
  - destruct (HL eq_refl) as (-> & ->). assert (a' = 0) as -> by lia. both. (* s v b | a w v b s *)
    unit_out. unit_out. pick 2. pick 0. pick 0. ring.
Qed.
Lemma local2_ok : forall L Rt W1 W2 dl dr phi, wtr W1 = wtl W2 -> (L = None -> dl = 1 /\ wtl W1 = 1) -> (Rt = None -> dr = 1 /\ wtr W2 = 1) -> (L <> None \/ Rt <> None) ->
  exists f, local2 r0 radd rmul L Rt W1 W2 dl dr (fun a s1 s2 b => phi a [s1; s2] b) = Ok f /\
    forall a' s1' s2' b', a' < dl -> b' < dr -> f a' s1' s2' b' = effective [W1; W2] dl (wtl W1) (wtr W2) dr (edge_val L) (edge_val Rt) phi a' [s1'; s2'] b'.
Proof.
  intros L Rt W1 W2 dl dr phi Hm HL HR HB. destruct L as [l|], Rt as [q|]; try (destruct HB; congruence);
    eexists; (split; [reflexivity|]); intros a' s1' s2' b' Ha Hb; rewrite eff2; cbn [edge_val]; cbv zeta.
  - both. (* v b s2 u s1 w a | a w v b s1 s2 u *) pick 2. pick 2. pick 3. pick 3. pick 2. pick 1. pick 0. ring.
  - destruct (HR eq_refl) as (-> & ->). assert (b' = 0) as -> by lia. both. (* s2 u s1 w a | a w v b s1 s2 u *)
    pick 5. pick 5. pick 4. pick 1. pick 0. unit_out. unit_out. ring.
  - destruct (HL eq_refl) as (-> & ->). assert (a' = 0) as -> by lia. both. (* s1 u s2 v b | a w v b s1 s2 u *)
    unit_out. unit_out. pick 2. pick 3. pick 2. pick 0. pick 0. ring.
Qed.
Lemma local_ok : forall L Rt ws dl dw dv dr phi, wlinked dw ws dv -> length ws <= 2 ->
  (L = None -> dl = 1 /\ dw = 1) -> (Rt = None -> dr = 1 /\ dv = 1) -> (L <> None \/ Rt <> None) ->
  exists f, local_product r0 radd rmul L Rt ws dl dw dr phi = Ok f /\
    forall a' c' b', a' < dl -> b' < dr -> length c' = length ws -> f a' c' b' = effective ws dl dw dv dr (edge_val L) (edge_val Rt) phi a' c' b'.
Proof.
  intros L Rt ws dl dw dv dr phi K Hlen HL HR HB. destruct ws as [|W1 [|W2 [|? ?]]]; [| | |cbn in Hlen; lia].
  - cbn in K. subst dv. destruct (local0_ok L Rt dl dw dr phi HL HR HB) as (f & Ef & Hf). cbn [local_product]. rewrite Ef. cbn [obind].
    eexists; split; [reflexivity|]. intros a' c' b' Ha Hb Hc. destruct c'; [|discriminate]. apply Hf; assumption.
  - destruct K as (K1 & K2). cbn in K2. subst dw dv. destruct (local1_ok L Rt W1 dl dr phi HL HR HB) as (f & Ef & Hf). cbn [local_product]. rewrite Ef. cbn [obind].
    eexists; split; [reflexivity|]. intros a' c' b' Ha Hb Hc. destruct c' as [|s [|? ?]]; try discriminate. apply Hf; assumption.
  - destruct K as (K1 & K2 & K3). cbn in K3. subst dw dv. destruct (local2_ok L Rt W1 W2 dl dr phi (eq_sym K2) HL HR HB) as (f & Ef & Hf). cbn [local_product]. rewrite Ef. cbn [obind].
    eexists; split; [reflexivity|]. intros a' c' b' Ha Hb Hc. destruct c' as [|s [|s2 [|? ?]]]; try discriminate. apply Hf; assumption.
Qed.

Lemma projects : forall tsL tsR wsL ws wsR dl dw dv dr chi phi,
  wlinked 1 wsL dw -> wlinked dw ws dv -> length wsL = length tsL ->
  bsum dl (fun a' => csum (wsites ws) (fun c' => bsum dr (fun b' =>
    conj (chi a' c' b') * effective ws dl dw dv dr (left_part tsL wsL) (right_part tsR wsR) phi a' c' b'))) =
  matrix_element tsL tsR wsL ws wsR dl dr chi phi.
Proof.
  intros tsL tsR wsL ws wsR dl dw dv dr chi phi KL K Len. unfold matrix_element.
  transitivity (lsum (confs (sites tsL)) (fun cL => lsum (confs (wsites ws)) (fun c => lsum (confs (sites tsR)) (fun cR =>
    lsum (confs (sites tsL)) (fun cL' => lsum (confs (wsites ws)) (fun c' => lsum (confs (sites tsR)) (fun cR' =>
      conj (insert tsL tsR dl dr chi cL' c' cR') *
        bsum dw (fun w => wchain wsL cL cL' 0 w * bsum dv (fun v => wchain ws c c' w v * wchain wsR cR cR' v 0)) *
        insert tsL tsR dl dr phi cL c cR))))))).
  - unfold effective, insert, left_part, right_part. both.
    pick 6. pick 4. pick 5. pick 7. pick 5. pick 5. pick 5. pick 1. pick 0. pick 1. pick 0. pick 0. ring.
  - symmetry. etransitivity; [norm|]. apply lsum_ext; intros cL HcL. apply lsum_ext; intros c Hc. apply lsum_ext; intros cR HcR.
    apply lsum_ext; intros cL' HcL'. apply lsum_ext; intros c' Hc'. apply lsum_ext; intros cR' HcR'.
    apply conf_len in HcL. apply conf_len in HcL'. apply conf_len in Hc. apply conf_len in Hc'.
    unfold sites, wsites in HcL, HcL', Hc, Hc'. rewrite map_length in HcL, HcL', Hc, Hc'.
    f_equal. f_equal. rewrite (wchain_app wsL cL cL' _ _ _ 1 dw) by (auto; lia). apply (bsum_ext r0 radd); intros w Hw. f_equal.
    rewrite (wchain_app ws c c' _ _ _ dw dv) by (auto; lia). reflexivity.
Qed.
Lemma effective_ext : forall ws dl dw dv dr L L' Rt Rt' phi a' c' b', a' < dl -> b' < dr ->
  (forall a w, a < dl -> w < dw -> L a w a' = L' a w a') -> (forall b v, b < dr -> v < dv -> Rt b v b' = Rt' b v b') ->
  effective ws dl dw dv dr L Rt phi a' c' b' = effective ws dl dw dv dr L' Rt' phi a' c' b'.
Proof.
  intros ws dl dw dv dr L L' Rt Rt' phi a' c' b' Ha Hb HL HR. unfold effective. apply (bsum_ext r0 radd); intros a Hx. apply (bsum_ext r0 radd); intros w Hw.
  apply (bsum_ext r0 radd); intros v Hv. apply (bsum_ext r0 radd); intros b Hy. rewrite !csum_lsum. apply lsum_ext; intros c _. rewrite HL, HR by assumption. reflexivity.
Qed.

Lemma insert_chain : forall tsL ts tsR dl dr cL c cR, linked 1 tsL dl -> linked dl ts dr -> length cL = length tsL -> length c = length ts ->
  insert tsL tsR dl dr (fun a c b => chain ts c a b) cL c cR = amplitude r0 r1 radd rmul (tsL ++ ts ++ tsR) (cL ++ c ++ cR).
Proof.
  intros tsL ts tsR dl dr cL c cR LL LM E1 E2. unfold amplitude, insert. rewrite (chain_app r0 r1 radd rmul rsub ropp RT tsL cL _ _ 1 dl) by (auto; lia).
  apply (bsum_ext r0 radd); intros a Ha. rewrite (chain_app r0 r1 radd rmul rsub ropp RT ts c _ _ dl dr) by auto. both. apply lsum_ext; intros b Hb. ring.
Qed.
Lemma energy_me : forall tsL ts tsR wsL ws wsR dl dr, linked 1 tsL dl -> linked dl ts dr -> wsites ws = sites ts ->
  matrix_element tsL tsR wsL ws wsR dl dr (fun a c b => chain ts c a b) (fun a c b => chain ts c a b) = energy (tsL ++ ts ++ tsR) (wsL ++ ws ++ wsR).
Proof.
  intros tsL ts tsR wsL ws wsR dl dr LL LM Hs. unfold energy, matrix_element. rewrite !sites_app, Hs.
  rewrite (csum_app r0 radd), !csum_lsum. apply lsum_ext; intros cL HcL. rewrite (csum_app r0 radd), !csum_lsum. apply lsum_ext; intros c Hc.
  rewrite !csum_lsum. apply lsum_ext; intros cR HcR.
  rewrite (csum_app r0 radd), !csum_lsum. apply lsum_ext; intros cL' HcL'. rewrite (csum_app r0 radd), !csum_lsum. apply lsum_ext; intros c' Hc'.
  rewrite !csum_lsum. apply lsum_ext; intros cR' HcR'.
  apply conf_len in HcL. apply conf_len in HcL'. apply conf_len in Hc. apply conf_len in Hc'.
  unfold sites in HcL, HcL', Hc, Hc'. rewrite map_length in HcL, HcL', Hc, Hc'.
  rewrite (insert_chain tsL ts tsR dl dr cL c cR), (insert_chain tsL ts tsR dl dr cL' c' cR') by auto. reflexivity.
Qed.
End LocalSem.
