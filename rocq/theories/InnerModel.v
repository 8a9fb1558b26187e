(** Inner products and traces of matrix product states and operators
    (itensor/mps/mps.cc, itensor/mps/mpo.cc), with tensors that carry named indices. *)
From Coq Require Import List Arith Bool.
From Verif Require Import Util TensorSpec.
Import ListNotations.
Local Open Scope outcome_scope.

(** An Index (index.h:85-110): id, tags and prime level (one number here), dimension.  Indices with
    equal id and tags have equal dimension, so comparing all three is operator== (index.cc:300-306).
    Arrows and QN blocks are left out; C22 and C48 are about them. *)
Record ix := mkIx { ixid : nat; ixlab : nat; ixdim : nat }.
Definition ix_eqb (a b : ix) : bool := (ixid a =? ixid b) && (ixlab a =? ixlab b) && (ixdim a =? ixdim b).
Definition has (l : list ix) (x : ix) : bool := existsb (ix_eqb x) l.
(** index.cc:554-559, indexset.cc:348-354, sim(is): same tags and dimension, new ids.  The random ids
    (index.cc:18-40) are the next unused numbers here: [k] is the first one. *)
Fixpoint sims (k : nat) (l : list ix) : list ix :=
  match l with [] => [] | x :: l' => mkIx k (ixlab x) (ixdim x) :: sims (S k) l' end.
(** indexset.cc:565-571, findIndex(is): null when there is none. *)
Definition findIndex (l : list ix) : outcome (option ix) :=
  match l with [] => Ok None | [x] => Ok (Some x) | _ => Err end.
(** A null Index in a set of site indices.  Simplified: the code carries the null Index on. *)
Definition some_index (o : outcome (option ix)) : outcome ix :=
  let! r := o in match r with Some x => Ok x | None => Err end.

Section InnerModel.
Context {R : Type} (r0 r1 : R) (radd rmul : R -> R -> R) (conj : R -> R).
Notation sum_over := (sum_over r0 radd ix_eqb ixdim).

(** An ITensor: its indices, and its elements as a function of a value (from 0) for each Index.
    How the elements are stored is the subject of C13, C14, C19 and C22. *)
Record nt := mkNT { nis : list ix; nel : (ix -> nat) -> R }.

(** itensor.cc:934-985, A*B: sum over the common indices (C14).  Also for tensors without indices. *)
Definition tmul (A B : nt) : nt :=
  mkNT (only ix_eqb (nis A) (nis B) ++ only ix_eqb (nis B) (nis A))
       (fun s => sum_over (common ix_eqb (nis A) (nis B)) (fun t => rmul (nel A t) (nel B t)) s).
(** t*a*b*... from left to right *)
Definition tmuls (t : nt) (ts : list nt) : nt := fold_left tmul ts t.
(** delta(s1,s2,...) (itensor.cc:1174-1200, itensor_impl.h:470-490): 1 where all values agree. *)
Definition delta_el (l : list ix) (s : ix -> nat) : R :=
  match l with [] => r1 | x :: l' => if forallb (fun y => s y =? s x) l' then r1 else r0 end.
Definition deltaT (l : list ix) : nt := mkNT l (delta_el l).
(** eltC(T) (itensor.cc:203-229): an error unless T has no indices. *)
Definition scalar (T : nt) : outcome R := match nis T with [] => Ok (nel T (fun _ => 0)) | _ => Err end.

(** itensor.cc:681-721, replaceInds on one tensor (C48): every Index J equal to is1[i] becomes
    is2[i]. *)
Fixpoint lk (is1 is2 : list ix) (J : ix) : ix :=
  match is1, is2 with
  | a :: is1', b :: is2' => if ix_eqb J a then b else lk is1' is2' J
  | _, _ => J
  end.
Definition rename (f : ix -> ix) (T : nt) : nt := mkNT (map f (nis T)) (fun s => nel T (fun x => s (f x))).
Definition replaceInds (is1 is2 : list ix) (T : nt) : outcome nt :=
  if forallb (fun J => ixdim (lk is1 is2 J) =? ixdim J) (nis T) then Ok (rename (lk is1 is2) T) else Err.

(** An MPS or MPO: the tensors A_[1], ..., A_[N].  A_[0] and A_[N+1] are null (mps.cc:27-45). *)
Definition mps := list nt.
Definition ninds (x : mps) (n : nat) : list ix :=
  match n with O => [] | S m => match nth_error x m with Some t => nis t | None => [] end end.
Definition sites_of (x : mps) : list nat := seq 1 (length x).
Fixpoint mapM {A B} (f : A -> outcome B) (l : list A) : outcome (list B) :=
  match l with [] => Ok [] | a :: l' => let! b := f a in let! bs := mapM f l' in Ok (b :: bs) end.
(** indexset.cc:649-665, uniqueInds(A,{B,C,...}) *)
Definition uniqueInds (l : list ix) (others : list (list ix)) : list ix := filter (fun x => negb (has (concat others) x)) l.
(** mps.cc:1213-1219, siteInds(W,b) *)
Definition siteInds1 (x : mps) (n : nat) : list ix := uniqueInds (ninds x n) [ninds x (n-1); ninds x (n+1)].
(** mps.cc:1222-1226 and 1300-1311, siteIndex(psi,j) and siteInds(psi) *)
Definition siteInds (x : mps) : outcome (list ix) := mapM (fun n => some_index (findIndex (siteInds1 x n))) (sites_of x).
(** mps.cc:1228-1260 and 1272-1285, linkIndex(x,n) and linkInds(x) *)
Definition linkInds (x : mps) : outcome (list ix) :=
  mapM (fun n => some_index (findIndex (filter (has (ninds x (n+1))) (ninds x n)))) (seq 1 (length x - 1)).
(** A_[n] changed by f_n *)
Fixpoint each {A} (f : A -> nt -> outcome nt) (l : list A) (x : mps) : outcome mps :=
  match x, l with
  | t :: x', a :: l' => let! t' := f a t in let! r := each f l' x' in Ok (t' :: r)
  | _, _ => Ok []
  end.
Definition list_eqb (l m : list ix) : bool := (length l =? length m) && forallb (fun p => ix_eqb (fst p) (snd p)) (combine l m).
(** mps.cc:1313-1327, MPS::replaceSiteInds *)
Definition replaceSiteInds (x : mps) (sites : list ix) : outcome mps :=
  if negb (length sites =? length x) then Err else
  let! sx := siteInds x in
  if list_eqb sx sites then Ok x else
  each (fun p => replaceInds [fst p] [snd p]) (combine sx sites) x.
(** mps.cc:1336-1352, replaceLinkInds.  The indices of tensor n that are replaced: link n-1 (for
    n > 1) and link n (for n < N). *)
Definition around (l : list ix) (n : nat) : list ix :=
  (match n with O => [] | S O => [] | S (S m) => match nth_error l m with Some a => [a] | None => [] end end)
  ++ (match n with O => [] | S m => match nth_error l m with Some a => [a] | None => [] end end).
Definition replaceLinkInds (x : mps) (links : list ix) : outcome mps :=
  if length x =? 1 then Ok x else
  if negb (length links =? length x - 1) then Err else
  let! lx := linkInds x in
  if list_eqb lx links then Ok x else
  each (fun n => replaceInds (around lx n) (around links n)) (sites_of x) x.
(** mps.cc:1110-1115, mpo.cc:127-132: dag(x) conjugates every tensor. *)
Definition dag (x : mps) : mps := map (fun t => mkNT (nis t) (fun s => conj (nel t s))) x.
(** x.replaceLinkInds(sim(linkInds(x))) *)
Definition simLinks (k : nat) (x : mps) : outcome mps := let! l := linkInds x in replaceLinkInds x (sims k l).

(** The tensors of several chains, site after site. *)
Fixpoint zip2 (x y : list nt) : list nt := match x, y with a :: x', b :: y' => a :: b :: zip2 x' y' | _, _ => [] end.
Fixpoint zip3 (x y z : list nt) : list nt :=
  match x, y, z with a :: x', b :: y', c :: z' => a :: b :: c :: zip3 x' y' z' | _, _, _ => [] end.
Fixpoint zip4 (x y z w : list nt) : list nt :=
  match x, y, z, w with a :: x', b :: y', c :: z', d :: w' => a :: b :: c :: d :: zip4 x' y' z' w' | _, _, _, _ => [] end.
(** L = t_1*t_2*t_3*...; return eltC(L).  An MPS without tensors is read out of range. *)
Definition contract_all (ts : list nt) : outcome R := match ts with [] => UB | t :: ts' => scalar (tmuls t ts') end.

(** mps.cc:1506-1522, innerC(psi,phi) *)
Definition innerC (k : nat) (psi phi : mps) : outcome R :=
  if negb (length psi =? length phi) then Err else
  let! sp := siteInds phi in
  let! d1 := replaceSiteInds (dag psi) sp in
  let! d2 := simLinks k d1 in
  contract_all (zip2 phi d2).

(** mpo.cc:182-208, uniqueSiteInds(A,x), and mpo.cc:220-234, uniqueSiteInds(A,B) *)
Definition uniqueSiteInds (A x : mps) : outcome (list ix) :=
  mapM (fun n => some_index (findIndex (uniqueInds (ninds A n) [ninds A (n-1); ninds A (n+1); ninds x n]))) (sites_of x).
(** mpo.cc:174-179 and 236-249, uniqueSiteInds(A,sites) *)
Definition uniqueSiteInds_is (A : mps) (sites : list ix) : outcome (list ix) :=
  if negb (length sites =? length A) then Err else
  mapM (fun p => some_index (findIndex (uniqueInds (siteInds1 A (fst p)) [[snd p]]))) (combine (sites_of A) sites).
(** mpo.cc:153-163, hasSiteInds *)
Definition hasSiteInds (A : mps) (sites : list ix) : bool :=
  forallb (fun p => has (nis (fst p)) (snd p)) (combine A sites).
(** mpo.cc:251-261, MPO::replaceSiteInds(old,new) *)
Definition replaceSiteIndsMPO (A : mps) (old new : list ix) : outcome mps :=
  if negb (length new =? length A) then Err else
  if hasSiteInds A new then Ok A else
  each (fun p => replaceInds [fst p] [snd p]) (combine old new) A.

(** mpo.cc:607-643, inner(x,A,y,re,im) *)
Definition innerMPO (k : nat) (x A y : mps) : outcome R :=
  if negb (length y =? length A) || negb (length x =? length A) then Err else
  let! sAy := uniqueSiteInds A y in
  let! xp := replaceSiteInds x sAy in
  let! xd := simLinks k (dag xp) in
  contract_all (zip3 y A xd).

(** mpo.cc:667-701, inner(A,x,B,y,re,im) = <Ax|By>.  Ap is computed and not used.  The last site is
    multiplied in after the loop over 2..N-1, also when N is 1. *)
Definition innerAxBy (k : nat) (A x B y : mps) : outcome R :=
  if negb (length x =? length y) || negb (length x =? length A) || negb (length y =? length B) then Err else
  let! uA := uniqueSiteInds A x in
  let! uB := uniqueSiteInds B y in
  let! _ := replaceSiteIndsMPO A uA uB in
  let! Ad := simLinks k (dag A) in
  let! xd := simLinks (k + length A) (dag x) in
  let ts := zip4 y B Ad xd in
  contract_all (if length y =? 1 then ts ++ ts else ts).

(** mpo.cc:726-762, inner(x,A,B,y,re,im) = <x|AB|y> *)
Definition innerxABy (k : nat) (x A B y : mps) : outcome R :=
  if negb (length x =? length y) || negb (length x =? length A) || negb (length x =? length B) then Err else
  let! uB := uniqueSiteInds B y in
  let! sABy := uniqueSiteInds_is A uB in
  let sAByp := sims k sABy in
  let k1 := k + length sABy in
  let! Ap := replaceSiteIndsMPO A sABy sAByp in
  let! Ap1 := simLinks k1 Ap in
  let! xp := replaceSiteInds x sAByp in
  let! xd := simLinks (k1 + length A) (dag xp) in
  let ts := zip4 y B Ap1 xd in
  contract_all (if length x =? 1 then ts ++ ts else ts).

(** mpo.cc:532-546, traceC(A) *)
Definition traceC (A : mps) : outcome R :=
  let parts := map (fun p => tmul (fst p) (deltaT (siteInds1 A (snd p)))) (combine A (sites_of A)) in
  contract_all parts.
(** mpo.cc:566-586, traceC(A,B) *)
Definition traceC2 (k : nat) (A B : mps) : outcome R :=
  if negb (length A =? length B) then Err else
  let! sA := uniqueSiteInds A B in
  let! sB := uniqueSiteInds B A in
  let! Bp := replaceSiteIndsMPO B sB sA in
  let! Bq := simLinks k Bp in
  contract_all (zip2 A Bq).
End InnerModel.
Arguments nt R : clear implicits. Arguments mkNT {R} nis nel. Arguments nis {R} n. Arguments nel {R} n.
Arguments mps R : clear implicits.
