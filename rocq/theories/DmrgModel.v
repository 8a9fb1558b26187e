(** Model of two-site DMRG with one MPO: dmrg and DMRGWorker (itensor/mps/dmrg.h:50-96,
    337-470), put together from the models of MPS (MpsModel), LocalMPO (LocalModel,
    LocalTensor), davidson (DavModel) and sweepnext (SweepsModel).

    Simplifications: dense tensors over complex numbers with exact arithmetic; the state
    stays in memory (dmrg.h:400 has psi.doWrite commented out); printing and timing are left
    out; the entries of Sweeps are functions of the sweep number. *)
From Coq Require Import ZArith List Bool Arith.
From Verif Require Import Util BigSum MpsModel MpsTensor MpsSpec LocalModel LocalTensor LocalMeaning DavSpec DavModel SweepsModel.
Import ListNotations.
Local Open Scope outcome_scope.

Section Dmrg.
Context {F : Type} (f0 f1 : F) (fadd fmul fsub : F -> F -> F) (fopp finv : F -> F) (fltb : F -> F -> bool)
  (fsqrt : F -> outcome F).
Notation K := (@cplx F).
Notation c0 := (c0 f0). Notation c1 := (c1 f0 f1).
Notation cadd := (cadd fadd). Notation cmul := (cmul fadd fmul fsub). Notation cconj := (cconj fopp).
Notation bsum := (bsum c0 cadd).
Notation csum := (BigSum.csum c0 cadd).
Notation tensor := (@tensor K).
Notation wave := (@wave K).
Notation edge := (@edge K).
Notation mps := (mps tensor).
Notation disk := (disk tensor).
Notation lmpo := (lmpo edge).

(** The tensors of the MPO H. *)
Context (ws : Z -> wten K).
(** LAPACK, the random tensors and the constants of davidson; svd in orthMPS. *)
Context (heev : nat -> (nat -> nat -> K) -> outcome ((nat -> nat -> K) * (nat -> F))).
Definition two_site := nat -> list nat -> nat -> K.
Context (rnd0 rnd : nat -> Z -> Z -> nat -> nat -> two_site).
Context (c1em20 c1em10 Approx0 c1em3 thousand : F).
Context (svdl svdr : tensor -> outcome (tensor * @matrix K)).
(** The factorisation in svdBond (mps_impl.h:50-84) with the arguments of sweep sw at bond b:
    cutoff, dimensions, noise term from PH, DoNormalize = true. *)
Context (split : nat -> Z -> lmpo -> bool -> wave -> outcome (tensor * tensor)).
(** sweeps.niter(sw); "MinIter", "ErrGoal"; maxdim(sw) >= WriteDim (dmrg.h:388-391). *)
Context (niter : nat -> nat) (miniter : nat) (errgoal : F) (writes : nat -> bool) (dfuel : nat).
(** The observer, an object of a class derived from DMRGObserver. *)
Context {O : Type} (measure : O -> nat -> Z -> Z -> option F -> mps -> O)
  (checkDone : O -> nat -> option F -> mps -> bool * O).

(** ITensor +, scalar * and eltC(dag(u)*v) on tensors with a left link, sites of dimensions
    ps and a right link. *)
Definition vadd (u v : two_site) : two_site := fun a c b => cadd (u a c b) (v a c b).
Definition vscale (k : K) (v : two_site) : two_site := fun a c b => cmul k (v a c b).
Definition vdot (dl : nat) (ps : list nat) (dr : nat) (u v : two_site) : K :=
  bsum dl (fun a => csum ps (fun c => bsum dr (fun b => cmul (cconj (u a c b)) (v a c b)))).

(** A_[j] as read by LocalMPO; a null tensor has no entries. *)
Definition tens (s : mps) (j : Z) : tensor :=
  match mA s j with Some t => t | None => mkT 0 0 0 false (fun _ _ _ => c0) end.

(** LocalMPO::product (localmpo.h:379-391), LocalOp::product. *)
Definition effH (PH : lmpo) (b : Z) (dl dr : nat) (v : two_site) : outcome two_site :=
  local_product c0 cadd cmul (getL PH) (getR PH) [ws b; ws (b + 1)%Z] dl (wtl (ws b)) dr v.

(** energy = davidson(PH,phi,args), dmrg.h:420.  PH.product either throws for every vector
    of this shape or for none, and davidson calls it first on phi, so the error is raised here. *)
Definition solve (sw : nat) (b ha : Z) (PH : lmpo) (w : wave) : outcome (option F * two_site) :=
  let phi : two_site := fun a c e => we w a (nth 0 c 0) (nth 1 c 0) e in
  let! _ := effH PH b (wl w) (wr w) phi in
  let product v := match effH PH b (wl w) (wr w) v with Ok f => f | _ => v end in
  davidson1 f0 f1 fmul fsub fopp finv fltb fsqrt vadd vscale
    (vdot (wl w) [wp1 w; wp2 w] (wr w)) product (wl w * wp1 w * wp2 w * wr w) heev
    (rnd0 sw b ha) (rnd sw b ha) c1em20 c1em10 Approx0 c1em3 thousand dfuel (niter sw) miniter errgoal phi.

(** The local variables of DMRGWorker, with a record of every energy passed to measure. *)
Record dstate := mkD { gd : disk; gpsi : mps; gPH : lmpo; gobs : O; genergy : option F;
  glog : list (nat * Z * Z * option F) }.

(** dmrg.h:404-446, the body of the loop over bonds. *)
Definition bond_step (sw : nat) (b ha : Z) (s : dstate) : outcome dstate :=
  let! PH := LocalModel.position (stepL c0 cadd cmul cconj ws) (stepR c0 cadd cmul cconj ws) (tens (gpsi s)) (gPH s) b in
  let! (d1, psi1, (ox, oy)) := get2 (gd s) (gpsi s) b (b + 1)%Z in
  match ox, oy with
  | Some x, Some y =>
      let w := pair2 c0 cadd cmul x y in
      let! (e, v) := solve sw b ha PH w in
      let w' := mkW (wl w) (wp1 w) (wp2 w) (wr w) (wj w) (fun a s1 s2 e => v a [s1; s2] e) in
      let! (d2, psi2) := svdBond (split sw b PH true) (split sw b PH false) d1 psi1 b w' (ha =? 1)%Z in
      Ok (mkD d2 psi2 PH (measure (gobs s) sw b ha e psi2) e (glog s ++ [(sw, b, ha, e)]))
  | _, _ => Err
  end.

(** dmrg.h:404: for(int b = 1, ha = 1; ha <= 2; sweepnext(b,ha,N)).  Running out of fuel is
    reported as UB. *)
Fixpoint bond_loop (fuel : nat) (sw : nat) (b ha : Z) (s : dstate) : outcome dstate :=
  if (ha <=? 2)%Z then
    match fuel with
    | 0 => UB
    | S fuel' =>
        let! s1 := bond_step sw b ha s in
        let (b', ha') := sweepnext (mN (gpsi s)) 2 1 (b, ha) in
        bond_loop fuel' sw b' ha' s1
    end
  else Ok s.

(** dmrg.h:376-463: the loop over sweeps; [left] counts the sweeps still to do. *)
Fixpoint sweeps_loop (left sw : nat) (s : dstate) : outcome dstate :=
  match left with
  | 0 => Ok s
  | S left' =>
      let! PH := (if negb (lwr (gPH s)) && writes sw then LocalModel.doWrite (gPH s) true else Ok (gPH s)) in
      let! s1 := bond_loop (Z.to_nat (2 * mN (gpsi s))) sw 1 1 (mkD (gd s) (gpsi s) PH (gobs s) (genergy s) (glog s)) in
      let (stop, o) := checkDone (gobs s1) sw (genergy s1) (gpsi s1) in
      let s2 := mkD (gd s1) (gpsi s1) (gPH s1) o (genergy s1) (glog s1) in
      if stop then Ok s2 else sweeps_loop left' (S sw) s2
  end.

(** mps.cc:164-171, normalize(), with norm (mps.cc:1048-1055) and operator/= (mps.cc:176-177). *)
Definition tscale (k : K) (t : tensor) : tensor := mkT (tl t) (tp t) (tr t) (tj t) (fun a s b => cmul k (te t a s b)).
Definition normalize (d : disk) (s : mps) : outcome (disk * mps) :=
  let! i := orthoCenter s in
  let! (d1, s1, ot) := get d s i in
  match ot with
  | None => Err
  | Some t =>
      let! nrm := fsqrt (fst (tnorm2 c0 cadd cmul cconj t)) in
      if fltb (fabs f0 fopp fltb nrm) c1em20 then Err
      else scale d1 s1 (option_map (tscale (cof f0 (finv nrm))))
  end.

(** dmrg.h:345-470, DMRGWorker. *)
Definition worker (nsweep : nat) (d : disk) (psi : mps) (PH : lmpo) (o : O) : outcome dstate :=
  let! (d1, psi1) := MpsModel.position (orthL c0 cadd cmul svdl) (orthR c0 cadd cmul svdr) d psi 1%Z in
  let! s := sweeps_loop nsweep 1 (mkD d1 psi1 PH o None []) in
  let! (d2, psi2) := normalize (gd s) (gpsi s) in
  Ok (mkD d2 psi2 (gPH s) (gobs s) (genergy s) (glog s)).

(** dmrg.h:79-88, dmrg(psi,H,sweeps,obs,args): LocalMPO PH(H,args), of H's length. *)
Definition dmrg (n : Z) (nsweep : nat) (d : disk) (psi : mps) (o : O) : outcome dstate :=
  worker nsweep d psi (make n true None None 0 (n + 1)%Z) o.
End Dmrg.
