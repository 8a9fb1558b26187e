(** Lemmas: projecting on the eigenvectors of a Gram matrix loses nothing, and the sweep of
    MPS::orthogonalize. *)
From Coq Require Import ZArith List Bool Arith Lia Ring.
From Verif Require Import Util BigSum MpsModel MpsTensor MpsSpec MpsProofs LocalSem OrtSpec OrtModel.
Import ListNotations.
Local Open Scope outcome_scope.

Section OrtProofs.
Context {R : Type} (r0 r1 : R) (radd rmul rsub : R -> R -> R) (ropp : R -> R) (conj : R -> R).
Context (RT : ring_theory r0 r1 radd rmul rsub ropp eq).
Hypothesis conj0 : conj r0 = r0.
Hypothesis conj1 : conj r1 = r1.
Hypothesis conj_add : forall x y, conj (radd x y) = radd (conj x) (conj y).
Hypothesis conj_mul : forall x y, conj (rmul x y) = rmul (conj x) (conj y).
Hypothesis conj_conj : forall x, conj (conj x) = x.
Hypothesis DEF : definite r0 radd rmul conj.
Add Ring RRort : RT.
Notation tensor := (@tensor R).
Notation bsum := (bsum r0 radd).
Notation csum := (csum r0 radd).
Notation lsum := (lsum r0 radd).
Notation chain := (chain r0 r1 radd rmul).
Notation delta := (delta r0 r1).
Notation "x + y" := (radd x y). Notation "x * y" := (rmul x y). Notation "- x" := (ropp x).
Let ls_ext := @lsum_ext R r0 radd.
Let ls_swap := @lsum_swap R r0 r1 radd rmul rsub ropp RT.
Let ls_l := @lsum_mul_l R r0 r1 radd rmul rsub ropp RT.
Let ls_r := @lsum_mul_r R r0 r1 radd rmul rsub ropp RT.
Let ls_add := @lsum_add R r0 r1 radd rmul rsub ropp RT.
Let ls_zero := @lsum_zero R r0 r1 radd rmul rsub ropp RT.
Lemma ls_conj {A} (l : list A) f : conj (lsum l f) = lsum l (fun x => conj (f x)).
Proof. apply (lsum_conj r0 radd conj conj0 conj_add). Qed.

Lemma conj_opp x : conj (- x) = - conj x.
Proof.
  assert (H : conj (x + - x) = r0) by (replace (x + - x) with r0 by ring; exact conj0). rewrite conj_add in H.
  transitivity (conj (- x) + (conj x + - conj x)); [ring|]. transitivity ((conj x + conj (- x)) + - conj x); [ring|]. rewrite H. ring.
Qed.
Lemma lsum_opp {A} (l : list A) f : - lsum l f = lsum l (fun x => - f x).
Proof. transitivity ((- r1) * lsum l f); [ring|]. rewrite ls_l. apply ls_ext. intros. ring. Qed.
Lemma definite_lsum {A} (l : list A) f : lsum l (fun x => f x * conj (f x)) = r0 -> forall x, In x l -> f x = r0.
Proof.
  intros H. assert (E : square_sum r0 radd rmul conj (map f l) = r0).
  { transitivity (lsum l (fun x => f x * conj (f x))); [|exact H]. clear H. induction l as [|y l IH]; [reflexivity|]. cbn. rewrite IH. reflexivity. }
  apply DEF in E. rewrite Forall_map, Forall_forall in E. exact E.
Qed.

(** * Projection on the eigenvectors *)
Lemma project {C I} (cs : list C) (is : list I) (m : nat) (X : C -> I -> R) (U : I -> nat -> R) (D : nat -> R) :
  (forall q q', q < m -> q' < m -> lsum is (fun i => U i q * conj (U i q')) = delta q q') ->
  (forall i i', In i is -> In i' is -> lsum cs (fun c => X c i * conj (X c i')) = lsum (seq 0 m) (fun q => conj (U i q) * D q * U i' q)) ->
  forall c i, In c cs -> In i is -> X c i = lsum (seq 0 m) (fun q => conj (U i q) * lsum is (fun i' => U i' q * X c i')).
Proof.
  intros ISO RHO c i Hc Hi.
  set (P := fun (i : I) c => lsum (seq 0 m) (fun q => conj (U i q) * lsum is (fun i' => U i' q * X c i'))).
  set (Y := fun c => X c i + - P i c).
  assert (Z : forall i'', In i'' is -> lsum cs (fun c => Y c * conj (X c i'')) = r0).
  { intros i'' Hi''. unfold Y.
    transitivity (lsum cs (fun c => X c i * conj (X c i'')) + - lsum cs (fun c => P i c * conj (X c i''))).
    { rewrite lsum_opp, <- ls_add. apply ls_ext. intros. ring. }
    enough (E : lsum cs (fun c => P i c * conj (X c i'')) = lsum cs (fun c => X c i * conj (X c i''))) by (rewrite E; ring).
    transitivity (lsum (seq 0 m) (fun q => conj (U i q) * lsum is (fun i' => U i' q * lsum cs (fun c => X c i' * conj (X c i''))))).
    { unfold P. transitivity (lsum cs (fun c => lsum (seq 0 m) (fun q => lsum is (fun i' => conj (U i q) * (U i' q * X c i') * conj (X c i''))))).
      - apply ls_ext. intros x _. rewrite ls_r. apply ls_ext. intros q _. rewrite ls_l, ls_r. reflexivity.
      - rewrite ls_swap. apply ls_ext. intros q _. rewrite ls_swap, ls_l. apply ls_ext. intros i' _. rewrite !ls_l. apply ls_ext. intros. ring. }
    rewrite (RHO i i'' Hi Hi''). apply ls_ext. intros q Hq. apply in_seq in Hq.
    transitivity (conj (U i q) * (D q * U i'' q)); [f_equal|ring].
    transitivity (lsum is (fun i' => lsum (seq 0 m) (fun q' => U i' q * (conj (U i' q') * D q' * U i'' q')))).
    { apply ls_ext. intros i' Hi'. rewrite (RHO i' i'' Hi' Hi''), ls_l. reflexivity. }
    rewrite ls_swap. transitivity (lsum (seq 0 m) (fun q' => delta q q' * (D q' * U i'' q'))).
    { apply ls_ext. intros q' Hq'. apply in_seq in Hq'. rewrite <- (ISO q q') by lia. rewrite ls_r. apply ls_ext. intros. ring. }
    rewrite <- (bsum_lsum r0 r1 radd rmul rsub ropp RT). apply (bsum_delta r0 r1 radd rmul rsub ropp RT). lia. }
  assert (YY : Y c = r0).
  { apply (definite_lsum cs Y); [|assumption].
    transitivity (lsum cs (fun c => Y c * conj (X c i)) + - lsum (seq 0 m) (fun q => conj (conj (U i q)) * lsum is (fun i' => conj (U i' q) * lsum cs (fun c => Y c * conj (X c i'))))).
    - transitivity (lsum cs (fun c => Y c * conj (X c i)) + - lsum cs (fun c => Y c * conj (P i c))).
      { rewrite lsum_opp, <- ls_add. apply ls_ext. intros x _. unfold Y at 2. rewrite conj_add, conj_opp. ring. }
      f_equal. f_equal. unfold P.
      transitivity (lsum cs (fun c => lsum (seq 0 m) (fun q => lsum is (fun i' => Y c * (conj (conj (U i q)) * (conj (U i' q) * conj (X c i'))))))).
      + apply ls_ext. intros x _. rewrite ls_conj, ls_l. apply ls_ext. intros q _. rewrite conj_mul, ls_conj, !ls_l. apply ls_ext. intros. rewrite conj_mul. reflexivity.
      + rewrite ls_swap. apply ls_ext. intros q _. rewrite ls_swap, ls_l. apply ls_ext. intros i' _. rewrite !ls_l. apply ls_ext. intros. ring.
    - rewrite (Z i Hi). rewrite (ls_zero _ (seq 0 m)); [ring|]. intros q _. rewrite (ls_zero _ is); [ring|]. intros i' Hi'. rewrite (Z i' Hi'). ring. }
  unfold Y in YY. transitivity ((X c i + - P i c) + P i c); [ring|]. rewrite YY. change (lsum (seq 0 m) _) with (P i c). ring.
Qed.

(** * Sums over pairs *)
Definition pairs (p r : nat) : list (nat * nat) := flat_map (fun s => map (pair s) (seq 0 r)) (seq 0 p).
Lemma in_pairs p r i : In i (pairs p r) <-> fst i < p /\ snd i < r.
Proof.
  unfold pairs. rewrite in_flat_map. split.
  - intros (s & Hs & H). apply in_map_iff in H as (k & <- & Hk). apply in_seq in Hs, Hk. cbn. lia.
  - intros [H1 H2]. exists (fst i). split; [apply in_seq; lia|]. apply in_map_iff. exists (snd i). split; [now destruct i|]. apply in_seq. lia.
Qed.
Lemma lsum_pairs p r f : lsum (pairs p r) f = bsum p (fun s => bsum r (fun k => f (s, k))).
Proof.
  unfold pairs. rewrite (lsum_flat r0 r1 radd rmul rsub ropp RT), (bsum_lsum r0 r1 radd rmul rsub ropp RT). apply ls_ext. intros s _.
  rewrite (lsum_map r0 radd), (bsum_lsum r0 r1 radd rmul rsub ropp RT). reflexivity.
Qed.

(** * Environments *)
Notation sites := (@sites R).
Lemma chain_snoc ts t c s b d : linked 1 ts d -> tl t = d -> length c = length ts -> b < tr t ->
  chain (ts ++ [t]) (c ++ [s]) 0 b = bsum d (fun a => chain ts c 0 a * te t a s b).
Proof.
  intros L E HL Hb. rewrite (chain_app r0 r1 radd rmul rsub ropp RT ts c [t] [s] 1 d) by (try assumption; lia).
  apply bsum_ext. intros a Ha. f_equal. apply (chain_one r0 r1 radd rmul rsub ropp RT). assumption.
Qed.
Lemma confs_snoc dims p (f : list nat -> R) : lsum (confs (dims ++ [p])) f = lsum (confs dims) (fun c => lsum (seq 0 p) (fun s => f (c ++ [s]))).
Proof. rewrite <- (csum_lsum r0 r1 radd rmul rsub ropp RT). apply (csum_snoc r0 r1 radd rmul rsub ropp RT). Qed.
Notation env := (env r0 radd rmul conj).
Lemma env_ok rest : rest <> [] -> forall d b b', linked 1 (rev rest) d -> b < d -> b' < d ->
  env rest b b' = lsum (confs (sites (rev rest))) (fun c => chain (rev rest) c 0 b * conj (chain (rev rest) c 0 b')).
Proof.
  induction rest as [|t rest IH]; intros NE d b b' L Hb Hb'; [congruence|]. cbn [rev] in *.
  apply linked_app in L as (e & L1 & L2 & L3). cbn in L3.
  change (sites (rev rest ++ [t])) with (map (@tp R) (rev rest ++ [t])). rewrite map_app. cbn [map]. rewrite confs_snoc.
  assert (X : lsum (confs (map (@tp R) (rev rest))) (fun c => lsum (seq 0 (tp t)) (fun s =>
     chain (rev rest ++ [t]) (c ++ [s]) 0 b * conj (chain (rev rest ++ [t]) (c ++ [s]) 0 b'))) =
   lsum (confs (map (@tp R) (rev rest))) (fun c => lsum (seq 0 (tp t)) (fun s =>
     lsum (seq 0 e) (fun a => lsum (seq 0 e) (fun a' => chain (rev rest) c 0 a * te t a s b * (conj (chain (rev rest) c 0 a') * conj (te t a' s b'))))))).
  { apply ls_ext. intros c Hc. apply ls_ext. intros s Hs. apply conf_len in Hc. rewrite map_length in Hc.
    rewrite !(chain_snoc _ _ _ _ _ e) by (try assumption; lia). rewrite !(bsum_lsum r0 r1 radd rmul rsub ropp RT), ls_conj, ls_r.
    apply ls_ext. intros a _. rewrite ls_l. apply ls_ext. intros a' _. rewrite conj_mul. reflexivity. }
  rewrite X. clear X. destruct rest as [|t' rest].
  - cbn in L1. subst e. cbn [OrtModel.env rev map confs LocalSem.lsum seq MpsSpec.chain]. unfold env1. rewrite (bsum_lsum r0 r1 radd rmul rsub ropp RT).
    transitivity (lsum (seq 0 (tp t)) (fun s => te t 0 s b * conj (te t 0 s b'))); [reflexivity|].
    match goal with |- _ = ?a + r0 => transitivity a; [|ring] end. apply ls_ext. intros s _. unfold BigSum.delta. cbn. rewrite conj1. ring.
  - set (rs := t' :: rest) in *. change (env (t :: rs) b b') with (env_next r0 radd rmul conj (env rs) t b b'). unfold env_next.
    rewrite L2, (bsum_lsum r0 r1 radd rmul rsub ropp RT).
    transitivity (lsum (seq 0 e) (fun a => lsum (seq 0 e) (fun a' => lsum (seq 0 (tp t)) (fun s => lsum (confs (map (@tp R) (rev rs))) (fun c =>
      chain (rev rs) c 0 a * te t a s b * (conj (chain (rev rs) c 0 a') * conj (te t a' s b'))))))).
    + apply ls_ext. intros a Ha. rewrite (bsum_lsum r0 r1 radd rmul rsub ropp RT). apply ls_ext. intros a' Ha'. rewrite (bsum_lsum r0 r1 radd rmul rsub ropp RT). apply ls_ext. intros s Hs.
      apply in_seq in Ha, Ha'. rewrite (IH ltac:(discriminate) e a a' L1 ltac:(lia) ltac:(lia)). rewrite !ls_r. apply ls_ext. intros. ring.
    + symmetry. rewrite ls_swap. transitivity (lsum (seq 0 (tp t)) (fun s => lsum (seq 0 e) (fun a => lsum (seq 0 e) (fun a' => lsum (confs (map (@tp R) (rev rs))) (fun c =>
        chain (rev rs) c 0 a * te t a s b * (conj (chain (rev rs) c 0 a') * conj (te t a' s b'))))))).
      * apply ls_ext. intros s _. rewrite ls_swap. apply ls_ext. intros a _. rewrite ls_swap. reflexivity.
      * rewrite ls_swap. apply ls_ext. intros a _. rewrite ls_swap. reflexivity.
Qed.

(** The amplitudes of the left part with O: one vector for every configuration. *)
Definition vec (rest : list tensor) (O : tensor) (c : list nat) (i : nat * nat) : R :=
  lsum (seq 0 (tl O)) (fun a => chain (rev rest) c 0 a * te O a (fst i) (snd i)).
Lemma density_ok rest O : rest <> [] -> linked 1 (rev rest) (tl O) -> forall i i',
  density r0 radd rmul conj (env rest) O (fst i) (snd i) (fst i') (snd i') =
  lsum (confs (sites (rev rest))) (fun c => vec rest O c i * conj (vec rest O c i')).
Proof.
  intros NE L i i'. unfold density. rewrite (bsum_lsum r0 r1 radd rmul rsub ropp RT).
  transitivity (lsum (seq 0 (tl O)) (fun a => lsum (seq 0 (tl O)) (fun a' => lsum (confs (sites (rev rest))) (fun c =>
    chain (rev rest) c 0 a * te O a (fst i) (snd i) * (conj (chain (rev rest) c 0 a') * conj (te O a' (fst i') (snd i'))))))).
  - apply ls_ext. intros a Ha. rewrite (bsum_lsum r0 r1 radd rmul rsub ropp RT). apply ls_ext. intros a' Ha'. apply in_seq in Ha, Ha'.
    rewrite (env_ok rest NE (tl O)) by (try assumption; lia). rewrite !ls_r. apply ls_ext. intros. ring.
  - symmetry. transitivity (lsum (confs (sites (rev rest))) (fun c => lsum (seq 0 (tl O)) (fun a => lsum (seq 0 (tl O)) (fun a' =>
      chain (rev rest) c 0 a * te O a (fst i) (snd i) * (conj (chain (rev rest) c 0 a') * conj (te O a' (fst i') (snd i'))))))).
    + apply ls_ext. intros c _. unfold vec. rewrite ls_conj, ls_r. apply ls_ext. intros a _. rewrite ls_l. apply ls_ext. intros a' _. rewrite conj_mul. reflexivity.
    + rewrite ls_swap. apply ls_ext. intros a _. rewrite ls_swap. reflexivity.
Qed.
Lemma lsum_nth {A} (l : list A) d f : lsum l f = bsum (length l) (fun k => f (nth k l d)).
Proof.
  rewrite (bsum_lsum r0 r1 radd rmul rsub ropp RT). rewrite <- (lsum_map r0 radd (fun k => nth k l d)). f_equal.
  induction l as [|x l IH]; [reflexivity|]. cbn [length seq map nth]. f_equal. rewrite IH at 1. rewrite <- seq_shift, map_map. reflexivity.
Qed.
Lemma density_gram rest O : rest <> [] -> linked 1 (rev rest) (tl O) -> gram r0 radd rmul conj (tp O) (tr O) (density r0 radd rmul conj (env rest) O).
Proof.
  intros NE L. exists (length (confs (sites (rev rest)))), (fun n s k => vec rest O (nth n (confs (sites (rev rest))) []) (s, k)). intros s k s' k' _ _ _ _.
  pose proof (density_ok rest O NE L (s, k) (s', k')) as E. cbn [fst snd] in E. rewrite E. exact (lsum_nth (confs (sites (rev rest))) [] (fun c => vec rest O c (s, k) * conj (vec rest O c (s', k')))).  
Qed.
Lemma density_rank E O : rank_le r0 radd rmul (tl O) (tp O) (tr O) (density r0 radd rmul conj E O).
Proof.
  exists (fun s k a => te O a s k), (fun a s' k' => bsum (tl O) (fun a' => E a a' * conj (te O a' s' k'))). intros s k s' k' _ _ _ _. unfold density.
  apply bsum_ext. intros a _. rewrite <- (bsum_mul_l r0 r1 radd rmul rsub ropp RT). apply bsum_ext. intros. ring.
Qed.

(** * The sweep *)
Context (diag : option nat -> nat -> nat -> @pmatrix R -> outcome (nat * (nat -> nat -> nat -> R))).
Hypothesis DOK : diag_ok r0 r1 radd rmul conj diag.
Context (maxdim : option nat).
Notation oloop := (oloop r0 radd rmul conj diag maxdim).
Notation amp := (amplitude r0 r1 radd rmul).
Notation RO := (right_orth r0 r1 radd rmul conj).

(** MaxDim, if given, is at least the dimension of every link. *)
Definition wide (ts : list tensor) : Prop := forall q, maxdim = Some q -> Forall (fun t => tl t <= q) ts.

Lemma dagU_orth O m U : isometry r0 r1 radd rmul conj (tp O) (tr O) m U -> RO (dagU conj O m U).
Proof.
  intros I q q' Hq Hq'. cbn [tl tp tr te dagU] in *. rewrite <- (I q q' Hq Hq'). rewrite (bsum_swap r0 r1 radd rmul rsub ropp RT).
  apply bsum_ext. intros s _. apply bsum_ext. intros k _. rewrite conj_conj. reflexivity.
Qed.

Lemma Forall2_split {A B} (P : A -> B -> Prop) c (l1 l2 : list B) : Forall2 P c (l1 ++ l2) -> exists c1 c2, c = c1 ++ c2 /\ Forall2 P c1 l1 /\ Forall2 P c2 l2.
Proof. intros H. apply Forall2_app_inv_r in H as (c1 & c2 & H1 & H2 & ->). eauto. Qed.


Lemma chain_vec rest O acc cL s cR : linked 1 (rev rest) (tl O) -> length cL = length rest ->
  chain (rev rest ++ O :: acc) (cL ++ s :: cR) 0 0 = lsum (seq 0 (tr O)) (fun k => vec rest O cL (s, k) * chain acc cR k 0).
Proof.
  intros L N. rewrite (chain_app r0 r1 radd rmul rsub ropp RT (rev rest) cL _ _ 1 (tl O)) by (try assumption; rewrite ?rev_length; lia).
  rewrite (bsum_lsum r0 r1 radd rmul rsub ropp RT). cbn [MpsSpec.chain].
  transitivity (lsum (seq 0 (tl O)) (fun a => lsum (seq 0 (tr O)) (fun k => chain (rev rest) cL 0 a * te O a s k * chain acc cR k 0))).
  - apply ls_ext. intros a _. rewrite (bsum_lsum r0 r1 radd rmul rsub ropp RT), ls_l. apply ls_ext. intros. ring.
  - rewrite ls_swap. apply ls_ext. intros k _. unfold vec. rewrite ls_r. reflexivity.
Qed.
Lemma vec_absorb rest t O m U c1 s q : linked 1 (rev (t :: rest)) (tl O) -> length c1 = length rest ->
  vec rest (absorb r0 radd rmul O t m U) c1 (s, q) = lsum (pairs (tp O) (tr O)) (fun i => U (fst i) (snd i) q * vec (t :: rest) O (c1 ++ [s]) i).
Proof.
  intros L N. cbn [rev] in L. apply linked_app in L as (e & L1 & L2 & L3). cbn in L3.
  unfold vec at 1. cbn [tl absorb te fst snd]. rewrite L2.
  transitivity (lsum (seq 0 e) (fun a => lsum (seq 0 (tl O)) (fun b => lsum (pairs (tp O) (tr O)) (fun i => chain (rev rest) c1 0 a * te t a s b * (U (fst i) (snd i) q * te O b (fst i) (snd i)))))).
  - apply ls_ext. intros a _. rewrite (bsum_lsum r0 r1 radd rmul rsub ropp RT), ls_l. apply ls_ext. intros b _. rewrite <- ls_l, lsum_pairs. cbn [fst snd]. ring.
  - transitivity (lsum (pairs (tp O) (tr O)) (fun i => lsum (seq 0 (tl O)) (fun b => lsum (seq 0 e) (fun a => chain (rev rest) c1 0 a * te t a s b * (U (fst i) (snd i) q * te O b (fst i) (snd i)))))).
    + rewrite ls_swap. transitivity (lsum (seq 0 (tl O)) (fun b => lsum (pairs (tp O) (tr O)) (fun i => lsum (seq 0 e) (fun a => chain (rev rest) c1 0 a * te t a s b * (U (fst i) (snd i) q * te O b (fst i) (snd i)))))); [|apply ls_swap].
      apply ls_ext. intros b _. apply ls_swap.
    + apply ls_ext. intros i _. unfold vec. rewrite ls_l. apply ls_ext. intros b Hb. apply in_seq in Hb. cbn [rev].
      rewrite (chain_snoc _ _ _ _ _ e) by (try assumption; rewrite ?rev_length; lia). rewrite (bsum_lsum r0 r1 radd rmul rsub ropp RT), ls_r, ls_l.
      apply ls_ext. intros. ring.
Qed.

(** Replacing O by its projection changes no amplitude. *)
Lemma project_step rest t O acc m U c : linked 1 (rev (t :: rest)) (tl O) ->
  isometry r0 r1 radd rmul conj (tp O) (tr O) m U ->
  diagonalises r0 radd rmul conj (tp O) (tr O) m U (density r0 radd rmul conj (env (t :: rest)) O) ->
  Forall2 lt c (sites (rev (t :: rest) ++ O :: acc)) ->
  chain (rev rest ++ absorb r0 radd rmul O t m U :: dagU conj O m U :: acc) c 0 0 = chain (rev (t :: rest) ++ O :: acc) c 0 0.
Proof.
  intros L ISO [D DG] Hc. unfold MpsSpec.sites in Hc. rewrite map_app in Hc. cbn [map] in Hc.
  apply Forall2_split in Hc as (cL & c' & -> & HL & Hc). inversion Hc as [|s' ? cR ? Hs' HR]; subst. clear Hc.
  pose proof (Forall2_length_eq _ _ _ HL) as NL. rewrite map_length, rev_length in NL. cbn [length] in NL.
  rewrite (chain_vec (t :: rest) O acc cL s' cR) by (try assumption; cbn; lia).
  assert (Hcl : In cL (confs (sites (rev (t :: rest))))).
  { clear - HL. unfold MpsSpec.sites. induction HL as [|x p l ps Hx HL IH]; [left; reflexivity|]. cbn. apply in_flat_map. exists x. split; [apply in_seq; lia|]. now apply in_map. }
  cbn [rev map] in HL. rewrite map_app in HL. apply Forall2_split in HL as (c1 & c2 & -> & H1 & H2).
  inversion H2 as [|s ? c2' ? Hs H2' ]; subst. inversion H2'; subst. clear H2 H2'.
  rewrite app_length in NL. cbn [length] in NL. rewrite <- app_assoc. cbn [app].
  rewrite (chain_vec rest); [|cbn [tl absorb]; cbn [rev] in L; apply linked_app in L as (e & L1 & L2 & _); now rewrite L2|lia]. cbn [tr absorb MpsSpec.chain dagU te].
  transitivity (lsum (seq 0 m) (fun q => lsum (seq 0 (tr O)) (fun k => conj (U s' k q) * lsum (pairs (tp O) (tr O)) (fun i => U (fst i) (snd i) q * vec (t :: rest) O (c1 ++ [s]) i) * chain acc cR k 0))).
  - apply ls_ext. intros q _. rewrite vec_absorb by (try assumption; lia). rewrite (bsum_lsum r0 r1 radd rmul rsub ropp RT), ls_l. apply ls_ext. intros. ring.
  - rewrite ls_swap. apply ls_ext. intros k Hk. apply in_seq in Hk. rewrite <- ls_r. f_equal. symmetry.
    apply (project (confs (sites (rev (t :: rest)))) (pairs (tp O) (tr O)) m (vec (t :: rest) O) (fun i q => U (fst i) (snd i) q) D).
    + intros q q' Hq Hq'. rewrite lsum_pairs. cbn [fst snd]. now apply ISO.
    + intros i i' Hi Hi'. apply in_pairs in Hi, Hi'. rewrite <- density_ok by (try discriminate; assumption). rewrite DG by lia. apply (bsum_lsum r0 r1 radd rmul rsub ropp RT).
    + assumption.
    + apply in_pairs. cbn. lia.
Qed.

Lemma oloop_ok rest : forall first O acc ts', linked 1 (rev rest) (tl O) -> linked (tr O) acc 1 -> Forall RO acc ->
  oloop first rest O acc = Ok ts' ->
  exists pre, ts' = pre ++ acc /\ length pre = S (length rest) /\ Forall RO (List.tl pre ++ acc) /\ linked 1 ts' 1 /\
    sites ts' = sites (rev rest ++ O :: acc) /\
    (forall k t, k < length rest -> nth_error ts' k = Some t -> tj t = true) /\
    (forall t, nth_error ts' (length rest) = Some t -> tj t = tj O) /\
    (wide (O :: rest) -> forall c, Forall2 lt c (sites (rev rest ++ O :: acc)) -> chain ts' c 0 0 = chain (rev rest ++ O :: acc) c 0 0).
Proof.
  induction rest as [|t rest IH]; intros first O acc ts' L LA RA H.
  { cbn in H. injection H as <-. cbn in L. exists [O]. cbn [app length List.tl]. split; [reflexivity|]. split; [reflexivity|]. split; [assumption|]. split; [split; auto|]. split; [reflexivity|].
    split; [intros; lia|]. split; [|reflexivity]. intros t' [= <-]. reflexivity. }
  cbn [OrtModel.oloop] in H. set (mx := match maxdim with Some q => _ | None => _ end) in H.
  destruct (diag mx _ _ _) as [[m U]| |] eqn:E; cbn [obind] in H; try discriminate.
  destruct (DOK _ _ _ _ _ _ (density_gram (t :: rest) O ltac:(discriminate) L) E) as [ISO DG].
  pose proof L as L0. cbn [rev] in L. apply linked_app in L as (e & L1 & L2 & L3). cbn in L3.
  destruct (IH false (absorb r0 radd rmul O t m U) (dagU conj O m U :: acc) ts') as (pre & -> & Hl & Hro & Hlk & Hs & Hj & Hj' & HA).
  { cbn [tl absorb]. rewrite L2. exact L1. }
  { cbn [tr absorb linked tl dagU]. auto. }
  { constructor; [now apply dagU_orth|assumption]. }
  { exact H. }
  exists (pre ++ [dagU conj O m U]). rewrite <- app_assoc. cbn [app].
  split; [reflexivity|]. split; [rewrite app_length; cbn; lia|]. split.
  { destruct pre; [discriminate|]. cbn [List.tl app] in *. rewrite <- app_assoc. exact Hro. }
  split; [assumption|]. split; [|split; [|split]].
  - rewrite Hs. unfold MpsSpec.sites. rewrite !map_app. cbn [map tp absorb dagU rev]. rewrite map_app. cbn [map]. rewrite <- app_assoc. reflexivity.
  - intros k x Hk Hx. cbn [length] in Hk. destruct (Nat.eq_dec k (length rest)) as [->|N]; [now rewrite (Hj' x Hx)|]. apply (Hj k x); [lia|assumption].
  - intros x Hx. cbn [length] in Hx. rewrite nth_error_app2 in Hx by lia. rewrite Hl, Nat.sub_diag in Hx. injection Hx as <-. reflexivity.
  - intros WD c Hc. rewrite HA.
    + apply project_step; try assumption. apply DG. intros q Eq. unfold mx in Eq. destruct maxdim as [q0|] eqn:Em.
      * injection Eq as ->. pose proof (WD q ltac:(congruence)) as W. inversion W as [|? ? W1 W2]; subst. clear - W1 RT.
        destruct (density_rank (env (t :: rest)) O) as (M & N & HMN). exists (fun s k a => if a <? tl O then M s k a else r0), N. intros s k s' k' h1 h2 h3 h4. rewrite HMN by assumption.
        replace q with (tl O + (q - tl O))%nat by lia. rewrite (bsum_split r0 r1 radd rmul rsub ropp RT).
        rewrite (bsum_zero r0 r1 radd rmul rsub ropp RT (q - tl O)) by (intros i Hi; destruct (Nat.ltb_spec (tl O + i) (tl O)); [lia|ring]).
        match goal with |- _ = ?a + r0 => transitivity a; [|ring] end. apply bsum_ext. intros a Ha. destruct (Nat.ltb_spec a (tl O)); [reflexivity|lia].
      * destruct first; [discriminate|]. injection Eq as <-. apply density_rank.
    + intros q Eq. pose proof (WD q Eq) as W. inversion W as [|? ? W1 W2]; subst. inversion W2; subst. constructor; assumption.
    + revert Hc. unfold MpsSpec.sites. cbn [rev]. rewrite !map_app. cbn [map tp absorb dagU]. rewrite <- app_assoc. auto.
Qed.

Lemma oloop_total rest : forall first O acc, linked 1 (rev rest) (tl O) ->
  (forall mx p r rho, gram r0 radd rmul conj p r rho -> exists x, diag mx p r rho = Ok x) ->
  exists ts', oloop first rest O acc = Ok ts'.
Proof.
  induction rest as [|t rest IH]; intros first O acc L TD; [eexists; reflexivity|]. cbn [OrtModel.oloop].
  match goal with |- context [diag ?mx ?p ?r ?rho] => destruct (TD mx p r rho) as ([m U] & ->) end.
  { apply density_gram; [discriminate|assumption]. }
  cbn [obind]. apply IH; [|assumption]. cbn [rev] in L. apply linked_app in L as (e & L1 & L2 & L3). cbn [tl absorb]. rewrite L2. exact L1.
Qed.
End OrtProofs.
