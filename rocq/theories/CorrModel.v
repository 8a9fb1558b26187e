(** Model of expect (itensor/mps/mps.h:889-936) and correlationMatrix
    (itensor/mps/mps.cc:1551-1697).

    Simplifications: in-memory MPS; dense tensors with one left and one right link of any dimension
    (dimension 1 for none); the numbers form any commutative ring with conjugation and division;
    the template argument T is the complex type (with Real, a complex value is an error). *)
From Coq Require Import ZArith List Bool Arith.
From Verif Require Import Util BigSum MpsModel MpsTensor OrtSpec OrtModel CorrSpec.
Import ListNotations.
Local Open Scope outcome_scope.

Section Corr.
Context {R : Type} (r0 r1 : R) (radd rmul : R -> R -> R) (ropp conj : R -> R) (rdiv : R -> R -> R).
Notation bsum := (bsum r0 radd).
Notation tensor := (@tensor R).
Notation mps := (mps tensor).
Notation disk := (disk tensor).
Notation site_op := (@site_op R).
Notation "x * y" := (rmul x y).
(** svd as used by position (mps.cc:653-657), diagPosSemiDef as used by orthogonalize. *)
Context (svdl svdr : tensor -> outcome (tensor * @matrix R)).
Context (diag : option nat -> nat -> nat -> @pmatrix R -> outcome (nat * (nat -> nat -> nat -> R))).
(** norm(ITensor), and the test fabs(nrm) < 1E-20 of mps.cc:168. *)
Context (norm : tensor -> outcome R) (tiny : R -> bool).

(** The SiteSet: dimensions and the operators whose names have no '*'; names are numbers. *)
Context (dim : Z -> nat) (base : nat -> Z -> site_op) (fname : nat).
(** An operator name: the parts between its '*' signs. *)
Definition opname := list nat.
(** isFermionic(SiteTerm) (autompo.h), by the name's first letter. *)
Context (isFermionic : opname -> bool).
(** eps < 1e-10 of mps.cc:1576-1577: the normalised operators O1 and dag(O2) agree. *)
Context (close : site_op -> site_op -> bool).

(** itensor.cc:1287-1294. *)
Definition multSiteOps (d : nat) (A B : site_op) : site_op := fun s s' => bsum d (fun t => B s t * A t s').
(** siteset.h:398-419: op(name,i) with name "A*B" is multSiteOps(op(A,i),op(B,i)), split at the first '*'. *)
Fixpoint op (name : opname) (i : Z) : site_op :=
  match name with
  | [] => delta r0 r1
  | x :: rest => match rest with [] => base x i | _ => multSiteOps (dim i) (base x i) (op rest i) end
  end.

Definition position := MpsModel.position (orthL r0 radd rmul svdl) (orthR r0 radd rmul svdr).
Definition orthogonalize := OrtModel.orthogonalize r0 radd rmul conj diag None.
(** psi(i): a default constructed tensor is an error in the products. *)
Definition tensor_at (s : mps) (i : Z) : outcome tensor := match mA s i with Some t => Ok t | None => Err end.
(** mps.h:901, mps.cc:1592. *)
Definition made_ortho (s : mps) : outcome mps := if isOrtho s then Ok s else orthogonalize s.

(** mps.cc:164-171, normalize(), with norm(MPS) (mps.cc:1048-1055) and operator/= (mps.cc:176-177). *)
Definition tscale (k : R) (t : tensor) : tensor := mkT (tl t) (tp t) (tr t) (tj t) (fun a s b => k * te t a s b).
Definition normalize (d : disk) (s : mps) : outcome (disk * mps) :=
  let! i := orthoCenter s in
  let! (d1, s1, ot) := MpsModel.get d s i in
  match ot with
  | None => Err
  | Some t => let! nrm := norm t in if tiny nrm then Err else scale d1 s1 (option_map (tscale (rdiv r1 nrm)))
  end.

(** mps.h:911: psi(i) * op * dag(prime(psi(i),sites(i))). *)
Definition local (t : tensor) (M : site_op) : R :=
  bsum (tl t) (fun a => bsum (tp t) (fun s => bsum (tp t) (fun s' => bsum (tr t) (fun b => te t a s b * M s s' * conj (te t a s' b))))).
(** mps.h:905-915. *)
Fixpoint expect_loop (vops : list opname) (d : disk) (s : mps) (site_list : list Z) : outcome (list (list R)) :=
  match site_list with
  | [] => Ok []
  | i :: rest =>
      let! (d1, s1) := position d s i in
      let! t := tensor_at s1 i in
      let exi := map (fun o => local t (op o i)) vops in
      let! ex := expect_loop vops d1 s1 rest in
      Ok (exi :: ex)
  end.
(** mps.h:889-918. *)
Definition expect (d : disk) (psi : mps) (vops : list opname) (site_list : list Z) : outcome (list (list R)) :=
  let! psi1 := made_ortho psi in
  let! (d2, psi2) := normalize d psi1 in
  expect_loop vops d2 psi2 site_list.
(** mps.cc:1553-1557, fixRange, on the range first <= i < last. *)
Definition fixRange (n : Z) (r : Z * Z) : Z * Z := if (fst r =? snd r)%Z then (1, n + 1)%Z else r.
(** mps.h:924-936. *)
Definition expect_range (d : disk) (psi : mps) (vops : list opname) (r : Z * Z) : outcome (list (list R)) :=
  let (first, last) := fixRange (mN psi) r in
  expect d psi vops (map (fun k => first + Z.of_nat k)%Z (seq 0 (Z.to_nat (last - first)))).

(** C[i][j] = x on a vector of vectors; out of bounds is undefined. *)
Definition set2 (C : list (list R)) (i j : nat) (x : R) : outcome (list (list R)) :=
  let! row := oget C i in let! row' := oupd j x row in oupd i row' C.

(** (L * psi(i) * op) * dag(prime(psi(i))) (mps.cc:1642), Li12 *= psi(j) ... op("F",j)*dag(prime(psi(j))) (mps.cc:1646,1655). *)
Definition transfer (L : nat -> nat -> R) (t : tensor) (M : site_op) (b b' : nat) : R :=
  bsum (tl t) (fun a => bsum (tl t) (fun a' => bsum (tp t) (fun s => bsum (tp t) (fun s' =>
    L a a' * te t a s b * M s s' * conj (te t a' s' b'))))).
(** The same with only the links primed: (L * psi(i)) * dag(prime(psi(i),"Link")) (mps.cc:1657,1690). *)
Definition transfer_plain (L : nat -> nat -> R) (t : tensor) (b b' : nat) : R :=
  bsum (tl t) (fun a => bsum (tl t) (fun a' => bsum (tp t) (fun s => L a a' * te t a s b * conj (te t a' s b')))).
(** The same with the right link not primed (mps.cc:1635, 1648). *)
Definition closed (L : nat -> nat -> R) (t : tensor) (M : site_op) : R :=
  bsum (tl t) (fun a => bsum (tl t) (fun a' => bsum (tp t) (fun s => bsum (tp t) (fun s' => bsum (tr t) (fun b =>
    L a a' * te t a s b * M s s' * conj (te t a' s' b)))))).

(** mps.cc:1643-1659 and, with the operators swapped, 1668-1681: the loop over j = i+1, ..., end_site.
    [put] stores the value for site j. *)
Fixpoint columns (put : Z -> R -> list (list R) -> outcome (list (list R))) (psi : mps) (norm2 : R) (opj : opname) (fermionic : bool)
  (n : nat) (j : Z) (E : nat -> nat -> R) (C : list (list R)) : outcome (list (list R)) :=
  match n with
  | 0 => Ok C
  | S n' =>
      let! t := tensor_at psi j in
      let! C1 := put j (rdiv (closed E t (op opj j)) norm2) C in
      let E' := if fermionic then transfer E t (op [fname] j) else transfer_plain E t in
      columns put psi norm2 opj fermionic n' (j + 1) E' C1
  end.

Section Rows.
Context (psi : mps) (norm2 : R) (op1 op2 : opname) (fermionic1 fermionic2 isHermitian : bool) (start_site end_site : Z).
(** ci = i - start_site. *)
Definition ix (i : Z) : nat := Z.to_nat (i - start_site).
(** mps.cc:1624-1691: the loop over i. *)
Fixpoint rows (n : nat) (i : Z) (L : nat -> nat -> R) (C : list (list R)) : outcome (list (list R)) :=
  match n with
  | 0 => Ok C
  | S n' =>
      let! t := tensor_at psi i in
      let! C1 := set2 C (ix i) (ix i) (rdiv (closed L t (op (op1 ++ op2) i)) norm2) in
      let E12 := transfer L t (op (if fermionic2 then op1 ++ [fname] else op1) i) in
      let put12 := fun j x C => let! C' := set2 C (ix i) (ix j) x in if isHermitian then set2 C' (ix j) (ix i) (conj x) else Ok C' in
      let! C2 := columns put12 psi norm2 op2 fermionic2 (Z.to_nat (end_site - i)) (i + 1) E12 C1 in
      let! C3 :=
        (if isHermitian then Ok C2
         else
           let E21 := transfer L t (op (if fermionic1 then op2 ++ [fname] else op2) i) in
           let E21' := fun b b' => if fermionic1 then ropp (E21 b b') else E21 b b' in
           columns (fun j x C => set2 C (ix j) (ix i) x) psi norm2 op1 fermionic1 (Z.to_nat (end_site - i)) (i + 1) E21' C2) in
      rows n' (i + 1) (transfer_plain L t) C3
  end.
End Rows.

(** mps.cc:1565-1580. *)
Definition hermitian_mode (arg : option bool) (op1 op2 : opname) : bool :=
  match arg with
  | Some b => b
  | None => close (op op1 1) (op op2 1) || (if list_eq_dec Nat.eq_dec op1 op2 then true else false)
  end.
(** mps.cc:1551-1697. *)
Definition correlationMatrix (d : disk) (psi0 : mps) (op1 op2 : opname) (r : Z * Z) (arg : option bool) : outcome (list (list R)) :=
  let isHermitian := hermitian_mode arg op1 op2 in
  let (start_site, last) := fixRange (mN psi0) r in
  let end_site := (last - 1)%Z in
  let! psi1 := made_ortho psi0 in
  let! (d2, psi) := position d psi1 start_site in
  let! t := tensor_at psi start_site in
  let! nrm := norm t in
  let norm2 := nrm * nrm in
  let fermionic1 := isFermionic op1 in
  let fermionic2 := isFermionic op2 in
  if negb (Bool.eqb fermionic1 fermionic2) then Err
  else
    let Nb := Z.to_nat (last - start_site) in
    let C := repeat (repeat r0 Nb) Nb in
    let L := if (1 <? start_site)%Z then delta r0 r1 else fun _ _ => r1 in
    rows psi norm2 op1 op2 fermionic1 fermionic2 isHermitian start_site end_site Nb start_site L C.
End Corr.
