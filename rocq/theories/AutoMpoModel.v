(** Model of itensor/mps/autompo.h and itensor/mps/autompo.cc: operator terms, the list of terms held
    by an AutoMPO, the `+=` interface, the Jordan-Wigner rewriting of operator names and the exact
    conversion to a matrix product operator.

    Coefficients are elements of an arbitrary commutative ring (the code: std::complex<double>, so
    rounding is not modelled); site numbers are natural numbers (the code: int). *)
From Coq Require Import List ZArith Arith Bool String Ascii Ring.
From Verif Require Import Util.
Import ListNotations.
Local Open Scope string_scope.

(** struct SiteTerm, autompo.h:55-84. *)
Record sterm := ST { st_op : string; st_i : nat }.

(** SiteTerm::operator==, autompo.h:65-66. *)
Definition st_eqb (a b : sterm) : bool := String.eqb (st_op a) (st_op b) && Nat.eqb (st_i a) (st_i b).

(** std::string operator<: unsigned bytes, lexicographic. *)
Definition str_ltb (a b : string) : bool := match String.compare a b with Lt => true | _ => false end.

(** SiteTerm::operator<, autompo.h:71-76. *)
Definition st_ltb (a b : sterm) : bool :=
  if negb (Nat.eqb (st_i a) (st_i b)) then Nat.ltb (st_i a) (st_i b) else str_ltb (st_op a) (st_op b).

(** isFermionic(SiteTerm), autompo.cc:84-97: the name starts with 'C'.  The DEBUG-only error for
    names containing '*' is not modelled. *)
Definition isF (t : sterm) : bool :=
  match st_op t with EmptyString => false | String c _ => Ascii.eqb c "C"%char end.

(** isFermionic(SiteTermProd), autompo.cc:107-117. *)
Definition isFp (p : list sterm) : bool := fold_left (fun isf t => if isF t then negb isf else isf) p false.

(** Lookup in the table of pairs `rewrites`: the loop shared by autompo.cc:132-136, 518-522, 538-542. *)
Fixpoint rewrite_tab (tab : list (string * string)) (op : string) : string :=
  match tab with
  | [] => op
  | (a, b) :: tab' => if String.eqb a op then b else rewrite_tab tab' op
  end.

(** fermionicTerm, autompo.cc:119-137. *)
Definition fermionicTerm : string -> string := rewrite_tab
  [("Cdagup", "Adagup"); ("Cup", "Aup"); ("Cdagdn", "Adagdn*Fup"); ("Cdn", "Adn*Fup"); ("C", "A"); ("Cdag", "Adag")].

(** startTerm, autompo.cc:504-523. *)
Definition startTerm : string -> string := rewrite_tab
  [("Cdagup", "Adagup*F"); ("Cup", "Aup*F"); ("Cdagdn", "Adagdn"); ("Cdn", "Adn"); ("C", "A*F"); ("Cdag", "Adag")].

(** endTerm, autompo.cc:525-543. *)
Definition endTerm : string -> string := rewrite_tab
  [("Cup", "Aup"); ("Cdagup", "Adagup"); ("Cdn", "F*Adn"); ("Cdagdn", "F*Adagdn"); ("C", "A"); ("Cdag", "Adag")].

(** rewriteFermionic, autompo.cc:139-165. *)
Definition rewriteFermionic (prod : list sterm) (leftF : bool) : outcome (list sterm) :=
  match prod with
  | [] => Err
  | p0 :: _ =>
      let i := st_i p0 in
      if existsb (fun t => negb (Nat.eqb (st_i t) i)) prod then Err
      else
        let sF := isFp prod in
        let prod1 := if sF then map (fun t => if isF t then ST (fermionicTerm (st_op t)) (st_i t) else t) prod
                     else prod in
        Ok (if (leftF && negb sF) || (negb leftF && sF) then (prod1 ++ [ST "F" i])%list else prod1)
  end.

(** decomposeTerm, autompo.cc:917-933: operators before site n, on site n, after site n. *)
Fixpoint span_until (p : sterm -> bool) (l : list sterm) : list sterm * list sterm :=
  match l with
  | [] => ([], [])
  | t :: l' => if p t then ([], l) else let '(a, b) := span_until p l' in (t :: a, b)
  end.
Definition decomposeTerm (n : nat) (ops : list sterm) : list sterm * list sterm * list sterm :=
  let '(lft, rest) := span_until (fun t => Nat.leb n (st_i t)) ops in
  let '(onsite, rgt) := span_until (fun t => Nat.ltb n (st_i t)) rest in
  (lft, onsite, rgt).

(** The operator placed on site n for one term by partitionHTerms, autompo.cc:1073-1083. *)
Definition siteProd (ops : list sterm) (n : nat) : outcome (list sterm) :=
  let '(lft, onsite, rgt) := decomposeTerm n ops in
  let leftF := isFp lft in
  match onsite with
  | [] => Ok [ST (if leftF then "F" else "Id") n]
  | _ => rewriteFermionic onsite leftF
  end.

Section Terms.
Context {R : Type} (r0 r1 : R) (radd rmul : R -> R -> R) (ropp : R -> R) (riszero : R -> bool).

(** struct HTerm, autompo.h:91-100. *)
Record hterm := HT { ht_coef : R; ht_ops : list sterm }.

(** HTerm(), autompo.h:96. *)
Definition ht_new : hterm := HT r1 [].

(** The `while(it != end && it->i <= i) ++it` split of HTerm::add, autompo.cc:189-190. *)
Fixpoint split_le (i : nat) (l : list sterm) : list sterm * list sterm :=
  match l with
  | [] => ([], [])
  | t :: l' => if Nat.leb (st_i t) i then let '(a, b) := split_le i l' in (t :: a, b) else ([], l)
  end.

(** HTerm::add, autompo.cc:182-206. *)
Definition ht_add (h : hterm) (op : string) (i : nat) (x : R) : hterm :=
  let '(pre, post) := split_le i (ht_ops h) in
  let t := ST op i in
  let c1 := match post with
            | [] => ht_coef h
            | _ => if isF t then (if isFp post then rmul (ht_coef h) (ropp r1) else ht_coef h) else ht_coef h
            end in
  HT (rmul c1 x) (pre ++ t :: post)%list.

(** HTerm::operator*=, autompo.cc:208-222. *)
Definition ht_scale (h : hterm) (x : R) : outcome hterm :=
  match ht_ops h with [] => Err | _ => Ok (HT (rmul (ht_coef h) x) (ht_ops h)) end.

(** HTerm::operator==, autompo.cc:224-237; `ceq` is the tolerance comparison of the coefficients.
    The loop condition is n <= ops.size(): position ops.size() is read past the end (UB). *)
Fixpoint ops_eq_loop (fuel n : nat) (a b : list sterm) : outcome bool :=
  match fuel with
  | O => Ok true
  | S f => match nth_error a n, nth_error b n with
           | Some x, Some y => if st_eqb x y then ops_eq_loop f (S n) a b else Ok false
           | _, _ => UB
           end
  end.
Definition ht_eq (ceq : R -> R -> bool) (a b : hterm) : outcome bool :=
  if negb (ceq (ht_coef a) (ht_coef b)) then Ok false
  else if negb (Nat.eqb (List.length (ht_ops a)) (List.length (ht_ops b))) then Ok false
  else ops_eq_loop (S (List.length (ht_ops a))) 0 (ht_ops a) (ht_ops b).

(** LessNoCoef, autompo.cc:246-256. *)
Fixpoint ops_less (a b : list sterm) : bool :=
  match a, b with
  | x :: a', y :: b' => if negb (st_eqb x y) then st_ltb x y else ops_less a' b'
  | _, _ => false
  end.
Definition lessNoCoef (a b : hterm) : bool :=
  if negb (Nat.eqb (List.length (ht_ops a)) (List.length (ht_ops b)))
  then Nat.ltb (List.length (ht_ops a)) (List.length (ht_ops b))
  else ops_less (ht_ops a) (ht_ops b).

(** std::set<HTerm,LessNoCoef>, as the list of its elements in order: find, erase(find), insert. *)
Definition equivT (a b : hterm) : bool := negb (lessNoCoef a b) && negb (lessNoCoef b a).
Definition set_find (t : hterm) (s : list hterm) : option hterm := find (equivT t) s.
Definition set_erase (t : hterm) (s : list hterm) : list hterm := filter (fun u => negb (equivT t u)) s.
Fixpoint set_insert (t : hterm) (s : list hterm) : list hterm :=
  match s with
  | [] => [t]
  | u :: s' => if lessNoCoef t u then t :: s
               else if lessNoCoef u t then u :: set_insert t s'
               else s
  end.

(** AutoMPO::add, autompo.cc:371-390. *)
Definition am_add (s : list hterm) (t : hterm) : list hterm :=
  if riszero (ht_coef t) then s
  else match set_find t s with
       | None => set_insert t s
       | Some u => set_insert (HT (radd (ht_coef t) (ht_coef u)) (ht_ops t)) (set_erase t s)
       end.

(** The arguments of one statement `ampo += a, b, c, ...`. *)
Inductive tok := TNum (x : R) | TInt (i : nat) | TStr (s : string).

(** class Accumulator, autompo.h:151-190: state New is None, state Op is Some name. *)
Record accum := Acc { ac_op : option string; ac_coef : R; ac_term : hterm }.

(** Accumulator(pa,x), (pa,op), autompo.cc:258-297; `ampo += 3` converts the int to a Real. *)
Definition acc_start (inj : nat -> R) (t : tok) : accum :=
  match t with
  | TNum x => Acc None x ht_new
  | TInt i => Acc None (inj i) ht_new
  | TStr s => Acc (Some s) r1 ht_new
  end.

(** operator,(Real), operator,(Complex), operator,(int), operator,(string), autompo.cc:308-368. *)
Definition acc_comma (inj : nat -> R) (a : accum) (t : tok) : outcome accum :=
  match t with
  | TNum x => Ok (Acc (ac_op a) (rmul (ac_coef a) x) (ac_term a))
  | TInt i => match ac_op a with
              | Some s => Ok (Acc None (ac_coef a) (ht_add (ac_term a) s i r1))
              | None => Ok (Acc None (rmul (ac_coef a) (inj i)) (ac_term a))
              end
  | TStr s => match ac_op a with
              | None => Ok (Acc (Some s) (ac_coef a) (ac_term a))
              | Some _ => Err
              end
  end.

Fixpoint acc_commas (inj : nat -> R) (a : accum) (l : list tok) : outcome accum :=
  match l with
  | [] => Ok a
  | t :: l' => match acc_comma inj a t with Ok a' => acc_commas inj a' l' | Err => Err | UB => UB end
  end.

(** ~Accumulator, autompo.cc:299-305.  (An Error there is a throw out of a destructor: Err here.) *)
Definition acc_finish (s : list hterm) (a : accum) : outcome (list hterm) :=
  match ac_op a with
  | Some _ => Err
  | None => match ht_scale (ac_term a) (ac_coef a) with
            | Ok t => Ok (am_add s t)
            | Err => Err
            | UB => UB
            end
  end.

(** One statement `ampo += t0, t1, ...`. *)
Definition am_stmt (inj : nat -> R) (s : list hterm) (t0 : tok) (l : list tok) : outcome (list hterm) :=
  match acc_commas inj (acc_start inj t0) l with
  | Ok a => acc_finish s a
  | Err => Err
  | UB => UB
  end.

(** *** toMPOImpl, autompo.cc:547-829 *)

(** HTerm::first, HTerm::last, autompo.h:113-117 (operator lists are not empty there). *)
Definition st_none : sterm := ST "" 0.
Definition ht_first (h : hterm) : sterm := hd st_none (ht_ops h).
Definition ht_last (h : hterm) : sterm := last (ht_ops h) st_none.

(** IL and HL, autompo.cc:568-569. *)
Definition IL : sterm := ST "IL" 0.
Definition HL : sterm := ST "HL" 0.

(** The basis of link n before sorting, autompo.cc:571-608 (the quantum number stored with each
    element is a function of the element, so it is not stored here). *)
Definition basis0 (N : nat) (terms : list hterm) (n : nat) : list sterm :=
  fold_left
    (fun bn h =>
       if Nat.leb (st_i (ht_first h)) n && Nat.leb n (st_i (ht_last h))
       then (if existsb (fun s => st_eqb s (ht_first h)) bn then bn else (bn ++ [ht_first h])%list)
       else bn)
    terms
    ((if Nat.ltb n N then [IL] else []) ++ (if Nat.leb 1 n then [HL] else []))%list.

(** ht_by_n[n], autompo.cc:656-661: one copy of the term per operator it has on site n. *)
Definition ht_by_n (terms : list hterm) (n : nat) : list hterm :=
  flat_map (fun h => flat_map (fun s => if Nat.eqb (st_i s) n then [h] else []) (ht_ops h)) terms.

Definition rsum (l : list R) : R := fold_right radd r0 l.

(** The matrix element of the site operator in row rst, column cst of the tensor of site n,
    autompo.cc:684-791.  `val n op` is the matrix element of the operator named op on site n, for a
    fixed choice of incoming and outgoing state on every site. *)
Definition wentry (val : nat -> string -> R) (terms : list hterm) (n : nat) (rst cst : sterm) : R :=
  radd
    (radd (if Nat.eqb (st_i cst) n && st_eqb rst IL then val n (startTerm (st_op cst)) else r0)
          (if st_eqb cst rst then val n (if isF cst then "F" else "Id") else r0))
    (radd (if st_eqb cst HL
           then rsum (map (fun h => if st_eqb rst (ht_first h) && Nat.eqb (st_i (ht_last h)) n
                                    then rmul (ht_coef h) (val n (endTerm (st_op (ht_last h)))) else r0)
                          (ht_by_n terms n))
           else r0)
          (if st_eqb rst IL && st_eqb cst HL
           then rsum (map (fun h => if Nat.eqb (st_i (ht_first h)) (st_i (ht_last h))
                                    then rmul (ht_coef h) (val n (st_op (ht_first h))) else r0)
                          (ht_by_n terms n))
           else r0)).

(** Matrix element of the returned MPO, as the product of the site tensors over the link indices;
    the first and last link are fixed to the first basis element, autompo.cc:807-808.
    srt n is what std::sort did to the basis of link n (the identity without QNs). *)
Fixpoint chain (srt : nat -> list sterm -> list sterm) (val : nat -> string -> R) (N : nat)
         (terms : list hterm) (k n : nat) (rst : sterm) : R :=
  match k with
  | O => wentry val terms n rst (hd st_none (srt N (basis0 N terms N)))
  | S k' => rsum (map (fun c => rmul (wentry val terms n rst c) (chain srt val N terms k' (S n) c))
                      (srt n (basis0 N terms n)))
  end.
Definition toMPO_elt (srt : nat -> list sterm -> list sterm) (val : nat -> string -> R) (N : nat)
         (terms : list hterm) : outcome R :=
  if existsb (fun h => Nat.ltb 2 (List.length (ht_ops h))) terms then Err
  else if existsb (fun h => existsb (fun s => Nat.ltb N (st_i s)) (ht_ops h)) terms then Err
  else if existsb (fun h => match ht_ops h with [] => true | _ => false end) terms then UB
  else Ok (chain srt val N terms (N - 1) 1 (hd st_none (srt 0 (basis0 N terms 0)))).
End Terms.
