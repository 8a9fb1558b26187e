(** Model of the contraction C = alpha*A*B + beta*C of labelled dense tensors:
    itensor/tensor/contract.cc (struct CProps, contract, contractScalar), itensor/tensor/contract.h
    (computeLabels), itensor/indexset_impl.h (contractIS), itensor/itdata/dense.cc (Contract).

    Simplifications, besides those of TensorModel.v: the tensors passed to contract have
    contiguous column-major ranges (as those made by makeTenRef over an IndexSet or a block do);
    the "already computed" shortcuts (contract.cc:261, 554) never fire because a CProps object
    is fresh; the cost comparison uses exact instead of floating-point products (the result does
    not depend on it, see C14); memory of vector_no_init buffers is an arbitrary list [junk]. *)
From Coq Require Import List ZArith Lia Bool Arith.
From Verif Require Import Util RangeModel TensorModel.
Import ListNotations.
Open Scope outcome_scope.

(** Labels (itensor/tensor/types.h): a list of int. *)
Definition labels := list Z.

(** find_index (contract.h:105-132): None stands for -1. *)
Definition find_index (v : labels) (t : Z) : option nat := find_pos Z.eqb t v.

(** The members AtoB_, AtoC_, BtoC_ (contract.cc:146-148): None stands for -1. *)
Definition tomap := list (option nat).
Definition is_none {T} (o : option T) : bool := match o with None => true | Some _ => false end.

(** contractedA, contractedB (contract.cc:185-188), reading outside the array is UB. *)
Definition contracted (m : tomap) (i : nat) : outcome bool := omap is_none (oget m i).

(** First position holding an entry, or the length (the start values ai.size() etc.,
    contract.cc:175-178, and the minimum taken in contract.cc:569-570, 581, 592). *)
Fixpoint first_some (m : tomap) : nat :=
  match m with [] => 0 | Some _ :: _ => 0 | None :: m' => S (first_some m') end.
Fixpoint first_none (m : tomap) : nat :=
  match m with [] => 0 | None :: _ => 0 | Some _ :: m' => S (first_none m') end.
Fixpoint min_some (d : nat) (m : tomap) : nat :=
  match m with [] => d | Some j :: m' => min_some (Nat.min d j) m' | None :: m' => min_some d m' end.
Fixpoint count_some (m : tomap) : nat :=
  match m with [] => 0 | Some _ :: m' => S (count_some m') | None :: m' => count_some m' end.

(** computePerms (contract.cc:550-598): for every label its first position in the other list. *)
Definition to_map (l l' : labels) : tomap := map (find_index l') l.

(** PC.setFromTo(c,AtoC(i)) for the uncontracted i, in order (contract.cc:273-290, 482-494). *)
Fixpoint setPC (m : tomap) (c : nat) (PC : perm) : outcome (nat * perm) :=
  match m with
  | [] => Ok (c, PC)
  | None :: m' => setPC m' c PC
  | Some k :: m' => let! PC' := oupd c k PC in setPC m' (S c) PC'
  end.
Definition computePC (AtoC BtoC : tomap) (PC : perm) : outcome perm :=
  let! (c, PC1) := setPC AtoC 0 PC in
  let! (_, PC2) := setPC BtoC c PC1 in
  Ok PC2.

(** checkACsameord, checkBCsameord (contract.cc:209-237). *)
Fixpoint sameord_loop (m : tomap) (cur : nat) : bool :=
  match m with
  | [] => true
  | None :: m' => sameord_loop m' cur
  | Some k :: m' => if k =? cur then sameord_loop m' (S cur) else false
  end.
Definition checkCsameord (m : tomap) (ustart : nat) : outcome bool :=
  if length m <=? ustart then Ok true else
  let! e := oget m ustart in
  match e with
  | Some c => Ok (sameord_loop m c)
  | None => UB (* not reached: ustart is the first uncontracted position *)
  end.

(** for(i < ncont) if(!contractedA(Acstart+i)) ... (contract.cc:315-321, 334-340). *)
Fixpoint noncontig (n : nat) (m : tomap) (i : nat) : outcome bool :=
  match n with
  | O => Ok false
  | S n' => let! c := contracted m i in if c then noncontig n' m (S i) else Ok true
  end.

(** contract.cc:304-322, 324-341: must A (or B) be permuted to look like a matrix? *)
Definition needs_permute (m : tomap) (cstart ncont : nat) : outcome bool :=
  let! first := contracted m 0 in
  let! last := contracted m (length m - 1) in
  if negb (first || last) then Ok true else noncontig ncont m cstart.

(** contract.cc:343-356: are the contracted indices of A and B in different order? *)
Fixpoint diff_order (n : nat) (AtoB : tomap) (ia ib : nat) : outcome bool :=
  match n with
  | O => Ok false
  | S n' => let! e := oget AtoB ia in
            match e with
            | Some j => if j =? ib then diff_order n' AtoB (S ia) (S ib) else Ok true
            | None => Ok true
            end
  end.

(** while(!contractedB(bind)) ++bind; (contract.cc:389, 435, 446). *)
Fixpoint next_contracted (fuel : nat) (m : tomap) (i : nat) : outcome nat :=
  let! c := contracted m i in
  if c then Ok i else match fuel with O => UB | S f => next_contracted f m (S i) end.

(** contract.cc:383-393 (and 443-451): contracted indices of [own] to the front,
    in the order they have on the other tensor [oth]. *)
Fixpoint front_other (n : nat) (mo : tomap) (oth own : labels) (ind newi : nat) (P : perm)
  : outcome (nat * perm) :=
  match n with
  | O => Ok (newi, P)
  | S n' => let! b := next_contracted (length mo) mo ind in
            let! lb := oget oth b in
            match find_index own lb with
            | None => UB (* P.setFromTo(-1,..) *)
            | Some j => let! P' := oupd j newi P in front_other n' mo oth own (S b) (S newi) P'
            end
  end.

(** contract.cc:433-437: contracted indices of B to the front keeping their relative order. *)
Fixpoint front_self (n : nat) (m : tomap) (i newi : nat) (P : perm) : outcome (nat * perm) :=
  match n with
  | O => Ok (newi, P)
  | S n' => let! b := next_contracted (length m) m i in
            let! P' := oupd b newi P in front_self n' m (S b) (S newi) P'
  end.

(** contract.cc:394-408 (and 452-466): reset AtoC, then uncontracted indices in the order of C. *)
Fixpoint back_loop (cl : labels) (k : nat) (own : labels) (newi : nat) (m : tomap) (P : perm)
  : outcome (tomap * perm) :=
  match cl with
  | [] => Ok (m, P)
  | c :: cl' =>
      match find_index own c with
      | Some j => let! m' := oupd newi (Some k) m in
                  let! P' := oupd j newi P in
                  if S newi =? length own then Ok (m', P') else back_loop cl' (S k) own (S newi) m' P'
      | None => if newi =? length own then Ok (m, P) else back_loop cl' (S k) own newi m P
      end
  end.

(** dleft, dmid, dright (contract.cc:269-292). *)
Fixpoint prod_where (f : option nat -> bool) (m : tomap) (r : range) : nat :=
  match m, r with
  | o :: m', x :: r' => if f o then ext x * prod_where f m' r' else prod_where f m' r'
  | _, _ => 1
  end.
Definition is_some {T} (o : option T) : bool := negb (is_none o).

(** Extents of the uncontracted indices (contract.cc:521-546). *)
Fixpoint unc_exts (m : tomap) (r : range) : list nat :=
  match m, r with
  | Some _ :: m', x :: r' => ext x :: unc_exts m' r'
  | None :: m', _ :: r' => unc_exts m' r'
  | _, _ => []
  end.

(** What contract(CProps,...) uses of a computed CProps. *)
Record cprops := CP {
  permuteA : bool; permuteB : bool; permuteC : bool; ctrans : bool;
  dleft : nat; dmid : nat; dright : nat;
  PA : perm; PB : perm; PC : perm;
  newArange : range; newBrange : range; newCrange : range;
  fAtoC : tomap; fBtoC : tomap }.

(** contract.cc:292-302 and 495-512: permuteC_ and ctrans from PC. *)
Definition c_flags (pc : perm) (AtoC BtoC : tomap) : outcome (bool * bool) :=
  if isTrivial pc then Ok (false, false) else
  let! sb := checkCsameord BtoC (first_some BtoC) in
  let! sa := if sb then checkCsameord AtoC (first_some AtoC) else Ok false in
  if sb && sa then Ok (false, true) else Ok (true, false).

(** contract.cc:359-375: permute A and B instead of C if that is cheaper. *)
Definition cheaper (pA pB : bool) (dl dm dr : nat) : bool :=
  let sq x := x * x in
  (if pA then 0 else sq (dl * dm)) + (if pB then 0 else sq (dm * dr)) <? sq (dl * dr).

(** CProps::compute (contract.cc:240-548). *)
Definition compute (rA rB : range) (ai bi ci : labels) : outcome cprops :=
  let AtoB := to_map ai bi in
  let AtoC := to_map ai ci in
  let BtoC := to_map bi ci in
  let ncont := count_some AtoB in
  let Acstart := first_some AtoB in
  let Bcstart := min_some (length bi) AtoB in
  let dl := prod_where is_some AtoC rA in
  let dm := prod_where is_none AtoC rA in
  let dr := prod_where is_some BtoC rB in
  let! pc0 := computePC AtoC BtoC (perm_id (length ci)) in
  let! (pC0, ct0) := c_flags pc0 AtoC BtoC in
  let! pA0 := needs_permute AtoC Acstart ncont in
  let! pB0 := needs_permute BtoC Bcstart ncont in
  let! df := if pA0 || pB0 then Ok false else diff_order ncont AtoB Acstart Bcstart in
  let pA1 := pA0 || (df && (dl <? dr)) in
  let pB1 := pB0 || (df && negb (dl <? dr)) in
  let sw := pC0 && negb (pA1 && pB1) && cheaper pA1 pB1 dl dm dr in
  let pA := pA1 || sw in
  let pB := pB1 || sw in
  let pC1 := pC0 && negb sw in
  let! (PA, AtoC', nA) :=
    if pA then
      let! (newi, P1) := front_other ncont BtoC bi ai Bcstart 0 (perm_id (length ai)) in
      let! (m, P2) := back_loop ci 0 ai newi (repeat None (length ai)) P1 in
      let! nr := permuteExtents rA P2 in
      Ok (P2, m, nr)
    else Ok ([], AtoC, []) in
  let! (PB, BtoC', nB) :=
    if pB then
      let! (newi, P1) :=
        if pA then front_self ncont BtoC Bcstart 0 (perm_id (length bi))
        else front_other ncont AtoC ai bi Acstart 0 (perm_id (length bi)) in
      let! (m, P2) := back_loop ci 0 bi newi (repeat None (length bi)) P1 in
      let! nr := permuteExtents rB P2 in
      Ok (P2, m, nr)
    else Ok ([], BtoC, []) in
  let! (pc, pC, ct) :=
    if pA || pB then
      let! pc := computePC AtoC' BtoC' pc0 in
      let! (pC, ct) := c_flags pc AtoC' BtoC' in
      Ok (pc, pC, ct)
    else Ok (pc0, pC1, ct0) in
  let nC := if pC then
              range_init (unc_exts AtoC' (if pA then nA else rA) ++ unc_exts BtoC' (if pB then nB else rB))
            else [] in
  Ok (CP pA pB pC ct dl dm dr PA PB pc nA nB nC AtoC' BtoC').

Section Contract.
Context {R : Type} (r0 : R) (radd rmul : R -> R -> R) (is0 : R -> bool).

(** contract(CProps,A,B,C,alpha,beta) (contract.cc:733-824).
    [junk] gives the contents of the uninitialised buffers (contract.cc:750). *)
Definition contract_props (p : cprops) (rA : range) (A : list R) (rB : range) (B : list R)
    (rC : range) (C : list R) (alpha beta : R) (junk : nat -> R) : outcome (list R) :=
  let buf n := map junk (seq 0 n) in
  let! (mA, dA) :=
    if permuteA p then
      let! vA := permuteRange rA (PA p) in
      let! t := tassign vA A (newArange p) (buf (dim (newArange p))) in
      Ok (mtranspose (mat_range (dmid p) (dleft p)), t)
    else
      let! tr := contracted (fAtoC p) 0 in
      if (tr : bool) then Ok (mtranspose (mat_range (dmid p) (dleft p)), A)
      else Ok (mat_range (dleft p) (dmid p), A) in
  let! (mB, dB) :=
    if permuteB p then
      let! vB := permuteRange rB (PB p) in
      let! t := tassign vB B (newBrange p) (buf (dim (newBrange p))) in
      Ok (mat_range (dmid p) (dright p), t)
    else
      let! tr := contracted (fBtoC p) 0 in
      if (tr : bool) then Ok (mat_range (dmid p) (dright p), B)
      else Ok (mtranspose (mat_range (dright p) (dmid p)), B) in
  if permuteC p then
    let! nC := gemm r0 radd rmul mA dA mB dB (mat_range (rn mA) (cn mB)) (buf (dim (newCrange p))) alpha beta in
    let! vC := permuteRange (newCrange p) (PC p) in
    tassign vC nC rC C
  else if ctrans p then
    gemm r0 radd rmul mA dA mB dB (mtranspose (mat_range (cn mB) (rn mA))) C alpha beta
  else
    gemm r0 radd rmul mA dA mB dB (mat_range (rn mA) (cn mB)) C alpha beta.

(** contractScalar (contract.cc:826-841). *)
Definition contractScalar (a : R) (rB : range) (B : list R) (bi : labels) (rC : range) (C : list R)
    (ci : labels) (alpha beta : R) : outcome (list R) :=
  let fac := rmul alpha a in
  let! P := calcPerm Z.eqb bi ci in
  let! vB := permuteRange rB P in
  if is0 beta then transform (fun b _ => rmul fac b) vB B rC C
  else transform (fun b c => radd (rmul fac b) (rmul beta c)) vB B rC C.

(** contract(A,ai,B,bi,C,ci,alpha,beta) (contract.cc:843-868). *)
Definition contract (rA : range) (A : list R) (ai : labels) (rB : range) (B : list R) (bi : labels)
    (rC : range) (C : list R) (ci : labels) (alpha beta : R) (junk : nat -> R) : outcome (list R) :=
  match ai, bi with
  | [], _ => let! a := oget A 0 in contractScalar a rB B bi rC C ci alpha beta
  | _, [] => let! b := oget B 0 in contractScalar b rA A ai rC C ci alpha beta
  | _, _ => let! p := compute rA rB ai bi ci in
            contract_props p rA A rB B rC C alpha beta junk
  end.
End Contract.

Section ComputeLabels.
Context {I : Type} (ieq : I -> I -> bool).

(** contract.h:167-186: for each i the first equal j; both get the next negative label. *)
Fixpoint label_cont (Lis Ris : list I) (i : nat) (ncont : nat) (Lind Rind : labels)
  : outcome (nat * labels * labels) :=
  match Lis with
  | [] => Ok (ncont, Lind, Rind)
  | x :: Lis' =>
      match find_pos ieq x Ris with
      | None => label_cont Lis' Ris (S i) ncont Lind Rind
      | Some j => let v := (- (1 + Z.of_nat ncont))%Z in
                  let! Lind' := oupd i v Lind in
                  let! Rind' := oupd j v Rind in
                  label_cont Lis' Ris (S i) (S ncont) Lind' Rind'
      end
  end.

(** contract.h:188-198: entries still 0 get the next positive label. *)
Fixpoint label_unc (l : labels) (uu : nat) : nat * labels :=
  match l with
  | [] => (uu, [])
  | v :: l' => if (v =? 0)%Z
               then let (u, r) := label_unc l' (S uu) in (u, Z.of_nat (S uu) :: r)
               else let (u, r) := label_unc l' uu in (u, v :: r)
  end.

(** computeLabels (contract.h:147-201). *)
Definition computeLabels (Lis Ris : list I) : outcome (labels * labels) :=
  let! (nc, L, R) := label_cont Lis Ris 0 0 (repeat 0%Z (length Lis)) (repeat 0%Z (length Ris)) in
  let (u, L') := label_unc L nc in
  let (_, R') := label_unc R u in
  Ok (L', R').

(** contractIS with sortResult = false (indexset_impl.h:77-128): uncontracted indices of L,
    then of R.  Removal of QNs does not matter for dense tensors. *)
Fixpoint uncontracted (is : list I) (ind : labels) : list (I * Z) :=
  match is, ind with
  | x :: is', v :: ind' => if (0 <? v)%Z then (x, v) :: uncontracted is' ind' else uncontracted is' ind'
  | _, _ => []
  end.
Definition contractIS (Lis : list I) (Lind : labels) (Ris : list I) (Rind : labels) : list I * labels :=
  let l := uncontracted Lis Lind ++ uncontracted Ris Rind in
  (map fst l, map snd l).
End ComputeLabels.

Section Dense.
Context {R : Type} (r0 r1 : R) (radd rmul : R -> R -> R) (is0 : R -> bool).
Context {I : Type} (ieq : I -> I -> bool) (idim : I -> nat).

(** A dense tensor: its indices and its column-major storage
    (makeTenRef(L.data(),L.size(),&C.Lis), dense.cc:303-311). *)
Definition irange (is : list I) : range := range_init (map idim is).

(** doTask(Contract,Dense,Dense) with an empty C.Nis (dense.cc:262-325); the storage of the
    result starts undefined ([junk]). *)
Definition contract_dense (Lis : list I) (L : list R) (Ris : list I) (Rr : list R) (junk : nat -> R)
  : outcome (list I * list R) :=
  let! (Lind, Rind) := computeLabels ieq Lis Ris in
  let (Nis, Nind) := contractIS Lis Lind Ris Rind in
  let rN := irange Nis in
  let! d := contract r0 radd rmul is0 (irange Lis) L Lind (irange Ris) Rr Rind rN
                     (map junk (seq 0 (dim rN))) Nind r1 r0 junk in
  Ok (Nis, d).

(** doTask(Mult) (dense.cc:110-139). *)
Definition mult_dense (z : R) (d : list R) : list R := map (fun x => rmul x z) d.

(** ITensor::operator*= (itensor.cc:935-981) on dense tensors. *)
Definition times (Lis : list I) (L : list R) (Ris : list I) (Rr : list R) (junk : nat -> R)
  : outcome (list I * list R) :=
  match Lis, Ris with
  | [], _ => let! z := oget L 0 in Ok (Ris, mult_dense z Rr)
  | _, [] => let! z := oget Rr 0 in Ok (Lis, mult_dense z L)
  | _, _ => contract_dense Lis L Ris Rr junk
  end.
End Dense.
