(** Model of toExpH (itensor/mps/autompo.cc:1499-1704): the MPO of an approximate exponential. *)
From Coq Require Import List Arith Bool String.
From Verif Require Import Util AutoMpoModel.
Import ListNotations.

Section Exph.
Context {R : Type} (r0 : R) (radd rmul : R -> R -> R) (ropp : R -> R).
Notation hterm := (@hterm R).
Notation rsum := (rsum r0 radd).

(** The basis of link n before sorting, autompo.cc:1526-1554: IL, and the first operator of each term
    for the links between its first and last site.  (The quantum number stored with each element is a
    function of the element, so it is not stored here.) *)
Definition ebasis (terms : list hterm) (n : nat) : list sterm :=
  fold_left
    (fun bn h =>
       if Nat.leb (st_i (ht_first h)) n && Nat.ltb n (st_i (ht_last h))
       then (if existsb (fun s => st_eqb s (ht_first h)) bn then bn else (bn ++ [ht_first h])%list)
       else bn)
    terms [IL].

(** The matrix element of the site operator in row rst, column cst of the tensor of site n,
    autompo.cc:1612-1671; ht_by_n (autompo.cc:1602-1607) is that of toMPOImpl. *)
Definition eentry (tau : R) (val : nat -> string -> R) (terms : list hterm) (n : nat) (rst cst : sterm) : R :=
  radd
    (radd (if Nat.eqb (st_i cst) n && st_eqb rst IL then rmul (ropp tau) (val n (startTerm (st_op cst))) else r0)
          (if st_eqb cst rst then val n (if isF cst then "F" else "Id")%string else r0))
    (radd (if st_eqb cst IL
           then rsum (map (fun h => if st_eqb rst (ht_first h) && Nat.eqb (st_i (ht_last h)) n
                                    then rmul (ht_coef h) (val n (endTerm (st_op (ht_last h)))) else r0)
                          (ht_by_n terms n))
           else r0)
          (if st_eqb rst IL && st_eqb cst IL
           then rsum (map (fun h => if Nat.eqb (st_i (ht_first h)) (st_i (ht_last h))
                                    then rmul (ropp tau) (rmul (ht_coef h) (val n (st_op (ht_first h)))) else r0)
                          (ht_by_n terms n))
           else r0)).

(** The product of the site tensors over the links; the first and last link are fixed to the first
    basis element, autompo.cc:1676-1677.  srt n is what std::sort did to the basis of link n
    (autompo.cc:1556-1569; the identity without QNs). *)
Fixpoint echain (srt : nat -> list sterm -> list sterm) (tau : R) (val : nat -> string -> R) (N : nat)
         (terms : list hterm) (k n : nat) (rst : sterm) : R :=
  match k with
  | O => eentry tau val terms n rst (hd st_none (srt N (ebasis terms N)))
  | S k' => rsum (map (fun c => rmul (eentry tau val terms n rst c) (echain srt tau val N terms k' (S n) c))
                      (srt n (ebasis terms n)))
  end.
(** toExpH_ZW1, autompo.cc:1499-1682: more than two operators are an error; a site after the last one
    is (vector::at); first() of a term without operators is undefined. *)
Definition toExpH_ZW1 (srt : nat -> list sterm -> list sterm) (tau : R) (val : nat -> string -> R) (N : nat)
         (terms : list hterm) : outcome R :=
  if existsb (fun h => Nat.ltb 2 (List.length (ht_ops h))) terms then Err
  else if existsb (fun h => existsb (fun s => Nat.ltb N (st_i s)) (ht_ops h)) terms then Err
  else if existsb (fun h => match ht_ops h with [] => true | _ => false end) terms then UB
  else Ok (echain srt tau val N terms (N - 1) 1 (hd st_none (srt 0 (ebasis terms 0)))).
(** toExpH, autompo.cc:1686-1704; approx is the argument "Approx". *)
Definition toExpH (approx : string) (srt : nat -> list sterm -> list sterm) (tau : R) (val : nat -> string -> R) (N : nat)
         (terms : list hterm) : outcome R :=
  if String.eqb approx "ZW1" then toExpH_ZW1 srt tau val N terms else Err.
End Exph.
