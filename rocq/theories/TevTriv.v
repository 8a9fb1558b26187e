(** Decompositions that always return and keep the contracts of MpsSpec over any ring: the
    orthogonal factor is the identity between the new link and the links and sites it
    stands for.  They show that the contracts can be met by functions that never fail. *)
From Coq Require Import ZArith List Bool Arith Lia Ring.
From Verif Require Import Util BigSum MpsTensor MpsSpec TevSpec.
Import ListNotations.
Local Open Scope nat_scope.

Section Triv.
Context {R : Type} (r0 r1 : R) (radd rmul rsub : R -> R -> R) (ropp : R -> R) (conj : R -> R)
  (RT : ring_theory r0 r1 radd rmul rsub ropp (@eq R)) (C0 : conj r0 = r0) (C1 : conj r1 = r1).
Add Ring RRtt : RT.
Notation bsum := (bsum r0 radd).
Notation delta := (delta r0 r1).
Notation tensor := (@tensor R).
Notation wave := (@wave R).

Definition triv_svdl (t : tensor) : outcome (tensor * (nat -> nat -> R)) :=
  Ok (mkT (tl t) (tp t) (tl t * tp t) (tj t) (fun a s c => delta (a * tp t + s) c), fun c b => te t (c / tp t) (c mod tp t) b).
Definition triv_svdr (t : tensor) : outcome (tensor * (nat -> nat -> R)) :=
  Ok (mkT (tr t * tp t) (tp t) (tr t) (tj t) (fun c s b => delta (b * tp t + s) c), fun a c => te t a (c mod tp t) (c / tp t)).
Definition triv_splitl (w : wave) : outcome (tensor * tensor) :=
  Ok (mkT (wl w) (wp1 w) (wl w * wp1 w) true (fun a s c => delta (a * wp1 w + s) c),
      mkT (wl w * wp1 w) (wp2 w) (wr w) (wj w) (fun c s b => we w (c / wp1 w) (c mod wp1 w) s b)).
Definition triv_splitr (w : wave) : outcome (tensor * tensor) :=
  Ok (mkT (wl w) (wp1 w) (wr w * wp2 w) true (fun a s c => we w a s (c mod wp2 w) (c / wp2 w)),
      mkT (wr w * wp2 w) (wp2 w) (wr w) (wj w) (fun c s b => delta (b * wp2 w + s) c)).

Lemma bsum_flat : forall l p g, bsum l (fun a => bsum p (fun s => g (a * p + s))) = bsum (l * p) g.
Proof.
  induction l as [|l IH]; intros p g; [reflexivity|]. replace (S l * p) with (l * p + p) by lia. rewrite (bsum_split r0 r1 radd rmul rsub ropp RT), <- IH. reflexivity.
Qed.
Lemma divmod p a s : s < p -> (a * p + s) / p = a /\ (a * p + s) mod p = s.
Proof. intros H. split; [rewrite Nat.div_add_l, Nat.div_small by lia; lia|]. rewrite Nat.add_comm, Nat.mod_add by lia. apply Nat.mod_small. lia. Qed.
Lemma ident l p c c' : c < l * p -> c' < l * p ->
  bsum l (fun a => bsum p (fun s => rmul (conj (delta (a * p + s) c)) (delta (a * p + s) c'))) = delta c c'.
Proof.
  intros H H'. rewrite (bsum_flat l p (fun i => rmul (conj (delta i c)) (delta i c'))).
  transitivity (bsum (l * p) (fun i => rmul (delta c i) (delta i c'))); [|now apply (bsum_delta r0 r1 radd rmul rsub ropp RT (l * p) c (fun i => delta i c'))].
  apply bsum_ext. intros i _. f_equal. unfold delta. rewrite (Nat.eqb_sym i c). destruct (Nat.eqb c i); assumption.
Qed.
Lemma below l p a s : a < l -> s < p -> a * p + s < l * p.
Proof. nia. Qed.

Lemma triv_svdl_ok : svdl_ok r0 r1 radd rmul conj triv_svdl.
Proof.
  intros t q M [= <- <-]. cbn [tl tp tj tr te]. repeat (split; [reflexivity|]). split; [intros c c' H H'; now apply ident|].
  intros a s b Ha Hs Hb. rewrite (bsum_delta r0 r1 radd rmul rsub ropp RT _ (a * tp t + s) (fun c => te t (c / tp t) (c mod tp t) b)) by now apply below.
  destruct (divmod (tp t) a s Hs) as [-> ->]. reflexivity.
Qed.
Lemma triv_svdr_ok : svdr_ok r0 r1 radd rmul conj triv_svdr.
Proof.
  intros t q M [= <- <-]. cbn [tl tp tj tr te]. repeat (split; [reflexivity|]). split; [intros c c' H H'; now apply ident|].
  intros a s b Ha Hs Hb. transitivity (bsum (tr t * tp t) (fun c => rmul (delta (b * tp t + s) c) (te t a (c mod tp t) (c / tp t)))).
  - rewrite (bsum_delta r0 r1 radd rmul rsub ropp RT _ (b * tp t + s) (fun c => te t a (c mod tp t) (c / tp t))) by now apply below.
    destruct (divmod (tp t) b s Hs) as [-> ->]. reflexivity.
  - apply bsum_ext. intros c _. ring.
Qed.
Lemma triv_splitl_ok : splitl_ok r0 r1 radd rmul conj triv_splitl.
Proof. intros w x y [= <- <-]. split; [|auto]. intros c c' H H'. now apply ident. Qed.
Lemma triv_splitr_ok : splitr_ok r0 r1 radd rmul conj triv_splitr.
Proof. intros w x y [= <- <-]. split; [|auto]. intros c c' H H'. now apply ident. Qed.
Lemma triv_splitl_exact : split_exact r0 radd rmul triv_splitl.
Proof.
  intros w x y [= <- <-]. cbn [tl tp tj tr te]. repeat (split; [reflexivity|]). intros a s s' b Ha Hs Hs' Hb.
  rewrite (bsum_delta r0 r1 radd rmul rsub ropp RT _ (a * wp1 w + s) (fun c => we w (c / wp1 w) (c mod wp1 w) s' b)) by now apply below.
  destruct (divmod (wp1 w) a s Hs) as [-> ->]. reflexivity.
Qed.
Lemma triv_splitr_exact : split_exact r0 radd rmul triv_splitr.
Proof.
  intros w x y [= <- <-]. cbn [tl tp tj tr te]. repeat (split; [reflexivity|]). intros a s s' b Ha Hs Hs' Hb.
  transitivity (bsum (wr w * wp2 w) (fun c => rmul (delta (b * wp2 w + s') c) (we w a s (c mod wp2 w) (c / wp2 w)))).
  - apply bsum_ext. intros c _. ring.
  - rewrite (bsum_delta r0 r1 radd rmul rsub ropp RT _ (b * wp2 w + s') (fun c => we w a s (c mod wp2 w) (c / wp2 w))) by now apply below.
    destruct (divmod (wp2 w) b s' Hs') as [-> ->]. reflexivity.
Qed.
Lemma exact_shape split : split_exact r0 radd rmul split -> split_shape split.
Proof. intros H w x y E. destruct (H w x y E) as (E1 & E2 & E3 & E4 & E5 & _). auto. Qed.
End Triv.
