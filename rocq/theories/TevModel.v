(** Model of gateTEvol (itensor/mps/tevol.h:55-149) and of the gates of
    itensor/mps/bondgate.h. *)
From Coq Require Import ZArith List Bool Arith.
From Verif Require Import Util BigSum MpsModel MpsTensor MpsSpec DavSpec DavModel DmrgModel TevSpec.
Import ListNotations.
Local Open Scope outcome_scope.

Section Tev.
Context {F : Type} (f0 f1 : F) (fadd fmul fsub : F -> F -> F) (fopp : F -> F)
  (fdiv : F -> F -> F) (finv : F -> F) (fltb : F -> F -> bool) (fsqrt : F -> outcome F).
Notation K := (@cplx F).
Notation c0 := (c0 f0). Notation c1 := (c1 f0 f1).
Notation cadd := (cadd fadd). Notation cmul := (cmul fadd fmul fsub). Notation cconj := (cconj fopp).
Notation cof := (cof f0).
Notation bsum := (bsum c0 cadd).
Notation tensor := (@tensor K).
Notation wave := (@wave K).
Notation mps := (mps tensor).
Notation disk := (disk tensor).
Notation op2 := (@op2 K).
Notation fabs := (fabs f0 fopp fltb).

(** ** bondgate.h *)
(** bondgate.h:24-69: sites i1() and i2(), and gate_, whose element at the values
    (p,q) of the unprimed and (p',q') of the primed Indices of the two sites is
    [gel p q p' q'].  The type is not kept: gateTEvol does not read it. *)
Record bgate := mkG { gi1 : Z; gi2 : Z; gel : op2 }.
(** A gate on neighbouring sites of a chain of n sites, and where it acts. *)
Definition on_bond (n : Z) (g : bgate) : Prop := (1 <= gi1 g /\ gi2 g = gi1 g + 1 /\ gi2 g <= n)%Z.
Definition place (g : bgate) : nat * op2 := (Z.to_nat (gi1 g - 1), gel g).
Inductive gtype := tReal | tImag | Swap | Custom.

(** Integers as numbers. *)
Fixpoint ofN (n : nat) : F := match n with 0 => f0 | S n' => fadd (ofN n') f1 end.
Definition ofZ (z : Z) : F :=
  match z with Z0 => f0 | Zpos p => ofN (Pos.to_nat p) | Zneg p => fopp (ofN (Pos.to_nat p)) end.
Definition smul2 (k : K) (A : op2) : op2 := fun p q p' q' => cmul (A p q p' q') k.
Definition add2 (A B : op2) : op2 := fun p q p' q' => cadd (A p q p' q') (B p q p' q').

(** bondgate.h:133-139: the loop for(int ord = n; ord >= 1; --ord), with [gate] the
    value of gate_ so far.  The tags are those of the products: gate_*bondH contracts
    the primed Indices of gate_ with the unprimed ones of the operator. *)
Fixpoint taylor_loop (d1 d2 : nat) (bondH : op2) (ord : nat) (term gate : op2) : op2 :=
  match ord with
  | 0 => gate
  | S ord' =>
      let term1 := smul2 (cof (finv (ofN (S ord')))) term in
      let gate1 := add2 (one2 c0 c1 cmul) term1 in
      taylor_loop d1 d2 bondH ord' (mul2 c0 cadd cmul d1 d2 gate1 bondH) gate1
  end.
(** bondgate.h:96-140: BondGate(sites,i1,i2,type,tau,bondH). *)
Definition time_gate (d1 d2 : nat) (i1 i2 : Z) (ty : gtype) (tau : F) (bondH : op2) : outcome bgate :=
  let '(j1, j2) := (if i1 <? i2 then (i1, i2) else (i2, i1))%Z in
  match ty with
  | tReal | tImag =>
      let H1 := smul2 (cof (fopp tau)) bondH in
      let H2 := match ty with tReal => smul2 (f0, f1) H1 | _ => H1 end in
      Ok (mkG j1 j2 (taylor_loop d1 d2 H2 100 H2 (fun _ _ _ _ => c0)))
  | _ => Err
  end.
(** bondgate.h:142-152: BondGate(sites,i1,i2,gate). *)
Definition custom_gate (i1 i2 : Z) (g : op2) : bgate := mkG i1 i2 g.
(** bondgate.h:77-94 and 154-167: BondGate(sites,i1,i2).  a(s1,s2') and b(s2,s1') get a 1
    at (j,j) for j = 1..dim(s1); set() throws when a value is over the dimension of
    its Index.  d1, d2: the dimensions of the sites i1_ and i2_. *)
Definition swap_gate (d1 d2 : nat) (i1 i2 : Z) : outcome bgate :=
  let '(j1, j2) := (if i1 <? i2 then (i1, i2) else (i2, i1))%Z in
  if d2 <? d1 then Err
  else
    let dg (x y : nat) : K := if Nat.eqb x y && Nat.ltb x d1 then c1 else c0 in
    Ok (mkG j1 j2 (fun p q p' q' => cmul (dg p q') (dg q p'))).

(** ** tevol.h *)
(** [svdl], [svdr], [splitL], [splitR] as in MpsModel; [c1em20], [c1em9] the constants;
    [trunc] the conversion of a Real to int; [dn] the argument "Normalize". *)
Context (svdl svdr : tensor -> outcome (tensor * (nat -> nat -> K)))
  (splitL splitR : wave -> outcome (tensor * tensor)) (c1em20 c1em9 : F) (trunc : F -> Z) (dn : bool).
Notation position := (MpsModel.position (orthL c0 cadd cmul svdl) (orthR c0 cadd cmul svdr)).
Notation svdBond := (svdBond splitL splitR).

(** tevol.h:89-90: AA = psi(i1)*psi(i2)*g->gate(), with the primes taken off. *)
Definition gated (w : wave) (g : op2) : wave :=
  mkW (wl w) (wp1 w) (wp2 w) (wr w) (wj w) (fun a p' q' e =>
    bsum (wp1 w) (fun p => bsum (wp2 w) (fun q => cmul (we w a p q e) (g p q p' q')))).

(** One svdBond: time step, position in the gate list (from 0), gate, and the MPS
    before and after.  For the statements only. *)
Record update := mkU { ustep : nat; upos : nat; ugate : bgate; ubefore : mps; uafter : mps }.

(** tevol.h:84-116: the loop over the gates.  Simplified: i2 = i1+1 is assumed, anything
    else is outside the model (psi(i1)*psi(i2) is then not a two-site tensor of a bond). *)
Fixpoint gates_loop (tt k : nat) (gs : list bgate) (d : disk) (psi : mps) (log : list update)
  : outcome (disk * mps * list update) :=
  match gs with
  | [] => Ok (d, psi, log)
  | g :: gs' =>
      if negb (gi2 g =? gi1 g + 1)%Z then UB else
      let! (d1, psi1, xy) := get2 d psi (gi1 g) (gi2 g) in
      match xy with
      | (Some x, Some y) =>
          let AA := gated (pair2 c0 cadd cmul x y) (gel g) in
          let! (d2, psi2, psi3) :=
            match gs' with
            | g' :: _ =>
                if (gi2 g <=? gi1 g')%Z then
                  let! (d2, psi2) := svdBond d1 psi1 (gi1 g) AA true in
                  let! (d3, psi3) := position d2 psi2 (gi1 g') in
                  Ok (d3, psi2, psi3)
                else
                  let! (d2, psi2) := svdBond d1 psi1 (gi1 g) AA false in
                  let! (d3, psi3) := position d2 psi2 (gi2 g') in
                  Ok (d3, psi2, psi3)
            | [] => let! (d2, psi2) := svdBond d1 psi1 (gi1 g) AA false in Ok (d2, psi2, psi2)
            end in
          gates_loop tt (S k) gs' d2 psi3 (log ++ [mkU tt k g psi psi2])
      | _ => Err
      end
  end.

(** mps.cc:1048-1055, norm(psi): the norm of the tensor at the orthogonality centre. *)
Definition norm_of (d : disk) (s : mps) : outcome (disk * mps * F) :=
  let! i := orthoCenter s in
  let! (d1, s1, ot) := get d s i in
  match ot with
  | None => Err
  | Some t => let! nrm := fsqrt (fst (tnorm2 c0 cadd cmul cconj t)) in Ok (d1, s1, nrm)
  end.
(** mps.cc:164-171, normalize(), which returns the norm; mps.cc:176-177, operator/=. *)
Definition normalize_r (d : disk) (s : mps) : outcome (disk * mps * F) :=
  let! (d1, s1, nrm) := norm_of d s in
  if fltb (fabs nrm) c1em20 then Err
  else
    let! (d2, s2) := scale d1 s1 (option_map (tscale fadd fmul fsub (cof (finv nrm)))) in
    Ok (d2, s2, nrm).

(** The variables of gateTEvol, the arguments "TimeStepNum" and "Time" and the MPS at
    each call of obs.measure, and the log of svdBond calls. *)
Record tev := mkTev { vd : disk; vpsi : mps; vnorm : F; vtime : F;
  vseen : list (nat * F * mps); vlog : list update }.

(** tevol.h:82-129: the turns tt, tt+1, ... of the loop over the time steps. *)
Fixpoint steps_loop (left tt : nat) (gates : list bgate) (tstep : F) (s : tev) : outcome tev :=
  match left with
  | 0 => Ok s
  | S left' =>
      let! (d1, psi1, log1) := gates_loop tt 0 gates (vd s) (vpsi s) (vlog s) in
      let! (d2, psi2, tot) :=
        (if dn then
           let! (d2, psi2, nrm) := normalize_r d1 psi1 in Ok (d2, psi2, fmul (vnorm s) nrm)
         else Ok (d1, psi1, vnorm s)) in
      let tsofar := fadd (vtime s) tstep in
      steps_loop left' (S tt) gates tstep (mkTev d2 psi2 tot tsofar (vseen s ++ [(tt, tsofar, psi2)]) log1)
  end.

(** tevol.h:67-71: the number of time steps.  Division by tstep = 0 gives an infinity or a
    NaN, whose conversion to int is undefined, as is that of a value out of range. *)
Definition nsteps (ttotal tstep : F) : outcome Z :=
  if negb (fltb tstep f0 || fltb f0 tstep) then UB else
  let r := fdiv ttotal tstep in
  let nt := trunc (fadd r (fmul c1em9 r)) in
  if (negb ((-2147483648 <=? nt) && (nt <=? 2147483647)))%Z then UB else
  if fltb c1em9 (fabs (fsub (fmul (ofZ nt) tstep) ttotal)) then Err else Ok nt.

(** tevol.h:55-137.  gatelist.front() of an empty list is undefined; range1(nt) is empty
    for nt <= 0 (util/iterate.h). *)
Definition gateTEvol (gates : list bgate) (ttotal tstep : F) (d : disk) (psi : mps) : outcome tev :=
  let! nt := nsteps ttotal tstep in
  match gates with
  | [] => UB
  | g :: _ =>
      let! (d1, psi1) := position d psi (gi1 g) in
      let! (d2, psi2, nrm) := norm_of d1 psi1 in
      steps_loop (Z.to_nat nt) 1 gates tstep (mkTev d2 psi2 nrm f0 [] [])
  end.
End Tev.
