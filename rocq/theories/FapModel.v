(** Model of the two-site fit of K|x>: twoSiteFitApply and fitApplyMPOImpl, itensor/mps/mpoalgs.cc:366-456.
    Tensors are positional (links and sites by their values, see MpsTensor and ApplySpec): x(n) has a left
    link, a site and a right link, K(n) also has the site of the result, Kx(n) has the latter.  Index
    renaming (replaceSiteInds, replaceLinkInds, mpoalgs.cc:417-422) therefore leaves no trace.  Kx is
    stored daggered during the sweeps, as in the code.  The two-site fit
    (NCenterSites=2, the default) is modelled for both values of Normalize, the one-site fit (mpoalgs.cc:310-364)
    for Normalize=false; printing is left out.  The singular value decomposition inside svdBond
    is a parameter; the arguments it gets may depend on the sweep and the bond. *)
From Coq Require Import ZArith List Bool Arith.
From Verif Require Import Util BigSum MpsTensor SweepsModel ApplySpec FapSpec.
Import ListNotations.
Local Open Scope outcome_scope.
Local Open Scope nat_scope.

Section FapModel.
Context {R : Type} (r0 r1 : R) (radd rmul : R -> R -> R) (conj : R -> R).
Notation tensor := (@tensor R).
Notation wave := (@wave R).
Notation kten := (kten R).
Notation bsum := (bsum r0 radd).
Notation "x * y" := (rmul x y).

(** E[n]: an element for each value of a link of x, of K and of Kx. *)
Definition env := nat -> nat -> nat -> R.
(** ITensor(1.), mpoalgs.cc:425 *)
Definition env_one : env := fun _ _ _ => r1.
(** mpoalgs.cc:387-388, lwfK = E[b-1]*x(b); lwfK *= K(b): arguments are the left link of Kx, the site of the
    result, and the right links of x and K. *)
Definition lwf (e : env) (x : tensor) (K : kten) : nat -> nat -> nat -> nat -> R := fun k s' b v =>
  bsum (kl K) (fun w => bsum (tp x) (fun s => bsum (tl x) (fun a => e a w k * te x a s b) * ke K w s s' v)).
(** mpoalgs.cc:389-390, rwfK = E[b+2]*x(b+1); rwfK *= K(b+1); also mpoalgs.cc:428, E[n+1]*x(n)*K(n). *)
Definition rwf (e : env) (x : tensor) (K : kten) : nat -> nat -> nat -> nat -> R := fun k s' a w =>
  bsum (kr K) (fun v => bsum (tp x) (fun s => bsum (tr x) (fun b => e b v k * te x a s b) * ke K w s s' v)).
(** mpoalgs.cc:392-393 and 398, wfK = lwfK*rwfK; wfK *= fac; wfK.dag(); t and u are Kx(b) and Kx(b+1), whose
    outer links wfK has. *)
Definition wfk (fac : R) (l r : nat -> nat -> nat -> nat -> R) (x1 : tensor) (K1 K2 : kten) (t u : tensor) : wave :=
  mkW (tl t) (ko K1) (ko K2) (tr u) (tj u) (fun k s s' k' =>
    conj (fac * bsum (tr x1) (fun b => bsum (kr K1) (fun v => l k s b v * r k' s' b v)))).
(** mpoalgs.cc:409, lwfK * Kx(b) *)
Definition lenv (l : nat -> nat -> nat -> nat -> R) (t : tensor) : env := fun b v k' =>
  bsum (tl t) (fun k => bsum (tp t) (fun s => l k s b v * te t k s k')).
(** mpoalgs.cc:411, rwfK * Kx(b+1); also mpoalgs.cc:428 *)
Definition renv (r : nat -> nat -> nat -> nat -> R) (t : tensor) : env := fun a w k =>
  bsum (tr t) (fun k' => bsum (tp t) (fun s => r k' s a w * te t k s k')).

Definition upd {A} (f : nat -> A) (j : nat) (v : A) : nat -> A := fun i => if i =? j then v else f i.

(** E and Kx. *)
Record fstate := mkF { fE : nat -> env; fkx : nat -> tensor }.

Context (N : nat) (fac : R) (x : nat -> tensor) (K : nat -> kten).
(** svdBond's factorisation (mps.cc:743-810): sweep, bond, direction (true: Fromleft). *)
Context (split : nat -> nat -> bool -> wave -> outcome (tensor * tensor)).
(** MPS::position(1), see C38 and MpsModel. *)
Context (position1 : (nat -> tensor) -> outcome (nat -> tensor)).

(** mpoalgs.cc:380-412, the body of the loop. *)
Definition bond_step (sw b : nat) (ha : Z) (s : fstate) : outcome fstate :=
  let l := lwf (fE s (b - 1)) (x b) (K b) in
  let r := rwf (fE s (b + 2)) (x (b + 1)) (K (b + 1)) in
  let w := wfk fac l r (x b) (K b) (K (b + 1)) (fkx s b) (fkx s (b + 1)) in
  let! (p, q) := split sw b (ha =? 1)%Z w in
  let kx := upd (upd (fkx s) b p) (b + 1) q in
  if (ha =? 1)%Z then Ok (mkF (upd (fE s) b (lenv l (kx b))) kx)
  else Ok (mkF (upd (fE s) (b + 1) (renv r (kx (b + 1)))) kx).

(** mpoalgs.cc:379, for(int b = 1, ha = 1; ha <= 2; sweepnext(b,ha,N)).  Running out of fuel is reported as
    UB. *)
Fixpoint bond_loop (fuel sw : nat) (b ha : Z) (s : fstate) : outcome fstate :=
  if (ha <=? 2)%Z then
    match fuel with
    | 0 => UB
    | S fuel' =>
        let! s1 := bond_step sw (Z.to_nat b) ha s in
        let (b', ha') := sweepnext (Z.of_nat N) 2 1 (b, ha) in
        bond_loop fuel' sw b' ha' s1
    end
  else Ok s.

(** mpoalgs.cc:431-453, the loop over sweeps; [left] counts the sweeps still to do. *)
Fixpoint sweeps_loop (left sw : nat) (s : fstate) : outcome fstate :=
  match left with
  | 0 => Ok s
  | S left' => let! s1 := bond_loop (2 * N) sw 1 1 s in sweeps_loop left' (S sw) s1
  end.

(** mpoalgs.cc:426-429, for(n = N; n > 2; --n) E[n] = E[n+1]*x(n)*K(n)*Kx(n); [m] counts the steps still to
    do, n = m + 2. *)
Fixpoint init_env (kx : nat -> tensor) (m : nat) (E : nat -> env) : nat -> env :=
  match m with
  | 0 => E
  | S m' => let n := m + 2 in init_env kx m' (upd E n (renv (rwf (E (n + 1)) (x n) (K n)) (kx n)))
  end.

(** mpoalgs.cc:405-456, fitApplyMPOImpl(fac,x,K,Kx,sweeps,args): Kx is dagged (415), brought to centre 1
    (423), swept, and dagged again (455). *)
Definition fit_apply (nsweep : nat) (kx : nat -> tensor) : outcome (nat -> tensor) :=
  let! kx1 := position1 (fun j => dagt conj (kx j)) in
  let! s := sweeps_loop nsweep 1 (mkF (init_env kx1 (N - 2) (fun _ => env_one)) kx1) in
  Ok (fun j => dagt conj (fkx s j)).
End FapModel.

(** Normalize=true, mpoalgs.cc:395, if(normalize) wfK /= norm(wfK); [nrm] is norm, iszero tests a number for
    0; dividing by 0 is reported as UB.  The division is done after wfK.dag() instead of before it: norm(wfK)
    is real and the same for wfK and its dag. *)
Section Normalize.
Context {R : Type} (r0 r1 : R) (radd rmul rdiv : R -> R -> R) (conj : R -> R) (iszero : R -> bool) (nrm : @wave R -> R).
Definition normalized (split : nat -> nat -> bool -> @wave R -> outcome (@tensor R * @tensor R)) :=
  fun (sw b : nat) (d : bool) (w : @wave R) =>
    if iszero (nrm w) then UB
    else split sw b d (mkW (wl w) (wp1 w) (wp2 w) (wr w) (wj w) (fun a s s' e => rdiv (we w a s s' e) (nrm w))).
(** fitApplyMPOImpl with Normalize given. *)
Definition fit_apply_args (normalize : bool) (N : nat) (fac : R) (x : nat -> @tensor R) (K : nat -> kten R)
    (split : nat -> nat -> bool -> @wave R -> outcome (@tensor R * @tensor R)) position1 :=
  fit_apply r0 r1 radd rmul conj N fac x K (if normalize then normalized split else split) position1.
End Normalize.


(** * NCenterSites=1: oneSiteFitApply, mpoalgs.cc:310-364, for Normalize=false.  The two tests that print and call Error
    (order(P) > 3, P without the link of Kx) are left out: P has one link on each side and the site. *)
Section OneSite.
Context {R : Type} (r0 r1 : R) (radd rmul : R -> R -> R) (conj : R -> R).
Notation tensor := (@tensor R).
Notation bsum := (bsum r0 radd).
Notation "x * y" := (rmul x y).
Context (N : nat) (fac : R) (x : nat -> tensor) (K : nat -> kten R).
(** V of svd(P,{ci}) (mpoalgs.cc:349): sweep, site, direction (true: ci is the right link), P. *)
Context (svd1 : nat -> nat -> bool -> tensor -> outcome tensor).
Context (position1 : (nat -> tensor) -> outcome (nat -> tensor)).
(** mpoalgs.cc:328-337 with ds=+1: nE = E[s-1]*x(s)*K(s), P = nE*E[s+1]*fac; dl and dr are the dimensions of the links. *)
Definition pl (dl dr : nat) (j : bool) (l : nat -> nat -> nat -> nat -> R) (e : env) (x : tensor) (K : kten R) : tensor :=
  mkT dl (ko K) dr j (fun k s k' => fac * bsum (tr x) (fun b => bsum (kr K) (fun v => l k s b v * e b v k'))).
(** The same with ds=-1: nE = E[s+1]*x(s)*K(s), P = nE*E[s-1]*fac. *)
Definition pr (dl dr : nat) (j : bool) (r : nat -> nat -> nat -> nat -> R) (e : env) (x : tensor) (K : kten R) : tensor :=
  mkT dl (ko K) dr j (fun k s k' => fac * bsum (tl x) (fun a => bsum (kl K) (fun w => r k' s a w * e a w k))).
(** mpoalgs.cc:321-362, the body of the loop. *)
Definition one_step (sw s : nat) (ha : Z) (t : @fstate R) : outcome fstate :=
  let dl := if s =? 1 then 1 else tr (fkx t (s - 1)) in
  let dr := if s =? N then 1 else tl (fkx t (s + 1)) in
  if (ha =? 1)%Z then
    let l := lwf r0 radd rmul (fE t (s - 1)) (x s) (K s) in
    let P := pl dl dr (s <? N) l (fE t (s + 1)) (x s) (K s) in
    let! V := (if s + 1 <=? N then svd1 sw s true P else Ok P) in
    let kx := upd (fkx t) s (dagt conj V) in
    Ok (mkF (upd (fE t) s (lenv r0 radd rmul l (kx s))) kx)
  else
    let r := rwf r0 radd rmul (fE t (s + 1)) (x s) (K s) in
    let P := pr dl dr (s <? N) r (fE t (s - 1)) (x s) (K s) in
    let! V := (if 1 <=? s - 1 then svd1 sw s false P else Ok P) in
    let kx := upd (fkx t) s (dagt conj V) in
    Ok (mkF (upd (fE t) s (renv r0 radd rmul r (kx s))) kx).
(** mpoalgs.cc:322, for(int s = 1, ha = 1; ha <= 2; sweepnext1(s,ha,N)); sweepnext1 is sweeps.h:509-514. *)
Fixpoint one_loop (fuel sw : nat) (b ha : Z) (s : @fstate R) : outcome fstate :=
  if (ha <=? 2)%Z then
    match fuel with
    | 0 => UB
    | S fuel' =>
        let! s1 := one_step sw (Z.to_nat b) ha s in
        let (b', ha') := sweepnext (Z.of_nat N) 1 1 (b, ha) in
        one_loop fuel' sw b' ha' s1
    end
  else Ok s.
(** mpoalgs.cc:431-453 *)
Fixpoint one_sweeps (left sw : nat) (s : @fstate R) : outcome fstate :=
  match left with
  | 0 => Ok s
  | S left' => let! s1 := one_loop (2 * N) sw 1 1 s in one_sweeps left' (S sw) s1
  end.
(** mpoalgs.cc:426-429 with NCenterSites=1: the steps down to n = 3, and n = 2. *)
Definition init_one (kx : nat -> tensor) : nat -> env :=
  let E := init_env r0 radd rmul x K kx (N - 2) (fun _ => env_one r1) in
  upd E 2 (renv r0 radd rmul (rwf r0 radd rmul (E 3) (x 2) (K 2)) (kx 2)).
(** mpoalgs.cc:405-456 *)
Definition fit_apply_one (nsweep : nat) (kx : nat -> tensor) : outcome (nat -> tensor) :=
  let! kx1 := position1 (fun j => dagt conj (kx j)) in
  let! s := one_sweeps nsweep 1 (mkF (init_one kx1) kx1) in
  Ok (fun j => dagt conj (fkx s j)).
End OneSite.
