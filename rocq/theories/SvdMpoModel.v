(** Model of the default ("SVD") conversion of an AutoMPO to a matrix product operator:
    itensor/mps/autompo.cc (toMatrix, posInBlock, partitionHTerms, compressMPO, constructMPOTensors,
    svdMPO).  Operator terms, decomposeTerm and rewriteFermionic are those of AutoMpoModel.v.

    Simplifications: numbers are elements of an arbitrary commutative ring with a conjugation; quantum
    numbers are elements of an arbitrary type with addition (C01-C03 are about the real QN), a term
    list without QNs is the case where every operator has the zero QN.  The singular value
    decomposition followed by the truncation is a function [vof] from the coefficient matrix to the
    kept right singular vectors (what it must satisfy is a hypothesis of the theorems).  Of the tensors
    of the MPO one element (for one value of every site index) is modelled: [val n p] is that element
    of the product p of operators on site n; the product over the link indices is written as a sum.
    The branch isExpH (which only calls Error) is left out. *)
From Coq Require Import List ZArith Arith Bool String.
From Verif Require Import Util AutoMpoModel.
Import ListNotations.
Local Open Scope outcome_scope.

Section SvdMpo.
Context {R : Type} (r0 r1 : R) (radd rmul : R -> R -> R) (conj : R -> R) (ceq : R -> R -> bool) (tiny : R -> bool).
Context {Q : Type} (q0 : Q) (qadd : Q -> Q -> Q) (qeqb qltb : Q -> Q -> bool).
(** -div(op(sites,st.op,st.i)). *)
Context (opq : sterm -> Q).
Context (vof : list (list R) -> nat * list (list R)).
Context (val : nat -> list sterm -> R).

Notation prod := (list sterm).

(** std::vector<SiteTerm> operator==. *)
Fixpoint prod_eqb (a b : prod) : bool :=
  match a, b with
  | [], [] => true
  | x :: a', y :: b' => st_eqb x y && prod_eqb a' b'
  | _, _ => false
  end.

(** toMatrix, autompo.cc:892-915: as large as the largest row and column number; elements that are
    not listed are zero; an element listed again is overwritten. *)
Definition mset (M : list (list R)) (r c : nat) (x : R) : list (list R) := upd r (upd c x (nth r M [])) M.
Definition toMatrix (vm : list (nat * nat * R)) : list (list R) :=
  let nr := fold_left (fun m e => Nat.max m (S (fst (fst e)))) vm 0 in
  let nc := fold_left (fun m e => Nat.max m (S (snd (fst e)))) vm 0 in
  fold_left (fun M e => mset M (fst (fst e)) (snd (fst e)) (snd e)) vm (repeat (repeat r0 nc) nr).

(** struct BasisBlock, autompo.cc:935-942.  A Basis (map from products to positions, filled with
    0,1,2,...) is the list of its products in the order of their positions. *)
Record block := Blk { b_left : list prod; b_right : list prod; b_mat : list (nat * nat * R) }.
Definition block0 : block := Blk [] [] [].
(** posInBlock, autompo.cc:949-962. *)
Fixpoint find_prod (p : prod) (b : list prod) : option nat :=
  match b with
  | [] => None
  | x :: b' => if prod_eqb p x then Some 0 else match find_prod p b' with Some i => Some (S i) | None => None end
  end.
Definition posInBlock (p : prod) (b : list prod) : nat * list prod :=
  match find_prod p b with Some i => (i, b) | None => (List.length b, b ++ [p])%list end.

(** QNBlock = map<QN,BasisBlock>, autompo.cc:944-945: a list of entries kept in the order of qltb;
    operator[] on a missing QN inserts an empty block. *)
Fixpoint get_blk {X} (d : X) (q : Q) (m : list (Q * X)) : X :=
  match m with [] => d | (q', b) :: m' => if qeqb q q' then b else get_blk d q m' end.
Fixpoint ins_blk {X} (q : Q) (b : X) (m : list (Q * X)) : list (Q * X) :=
  match m with [] => [(q, b)] | (q', b') :: m' => if qltb q q' then (q, b) :: m else (q', b') :: ins_blk q b m' end.
Fixpoint set_blk {X} (q : Q) (b : X) (m : list (Q * X)) : list (Q * X) :=
  match m with [] => [] | (q', b') :: m' => if qeqb q q' then (q', b) :: m' else (q', b') :: set_blk q b m' end.
Definition put_blk {X} (q : Q) (b : X) (m : list (Q * X)) : list (Q * X) :=
  if existsb (fun e => qeqb q (fst e)) m then set_blk q b m else ins_blk q b m.

(** IQMPOMatElem, autompo.cc:829-872; -1 is None. *)
Record elem := El { e_rq : Q; e_cq : Q; e_row : option nat; e_col : option nat; e_coef : R; e_ops : prod }.
Definition onat_eqb (a b : option nat) : bool :=
  match a, b with Some x, Some y => Nat.eqb x y | None, None => true | _, _ => false end.
(** Neither operator< holds: HTerm::operator< compares the coefficients with a tolerance, then the
    operators (autompo.cc:239-244, 852-871). *)
Definition el_equiv (a b : elem) : bool :=
  onat_eqb (e_row a) (e_row b) && onat_eqb (e_col a) (e_col b) && qeqb (e_rq a) (e_rq b) && qeqb (e_cq a) (e_cq b) &&
  ceq (e_coef a) (e_coef b) && prod_eqb (e_ops a) (e_ops b).
(** std::set::find and insert (autompo.cc:1110-1111); the order of the set is not modelled. *)
Definition el_insert (e : elem) (s : list elem) : list elem := if existsb (el_equiv e) s then s else (s ++ [e])%list.

(** calcQN, autompo.cc:1019-1030. *)
Definition calcQN (p : prod) : Q := fold_left (fun q t => qadd q (opq t)) p q0.

(** vector::at(n-1), vector::at(n-2) and so on: outside, at() throws. *)
Definition at_ {X} (v : list X) (n : Z) : outcome X :=
  if (n <? 0)%Z then Err else match nth_error v (Z.to_nat n) with Some x => Ok x | None => Err end.
Definition put_at {X} (v : list X) (n : Z) (x : X) : list X := upd (Z.to_nat n) x v.

(** The state of partitionHTerms: blocks per link, elements per site. *)
Notation pstate := (list (list (Q * block)) * list (list elem))%type.

(** The body of partitionHTerms for one term and one site, autompo.cc:1035-1112. *)
Definition part_site (c : R) (ops : prod) (n : nat) (s : pstate) : outcome pstate :=
  let '(qbs, temp) := s in
  let '(lft, onsite, rgt) := decomposeTerm n ops in
  let lqn := calcQN lft in
  let sqn := calcQN onsite in
  let nz := Z.of_nat n in
  let! (qbs, j, k) :=
    match lft with
    | [] =>
        match rgt with
        | [] => Ok (qbs, None, None)
        | _ =>
            let! qb := at_ qbs (nz - 1) in
            let b := get_blk block0 sqn qb in
            let '(k, r) := posInBlock rgt (b_right b) in
            Ok (put_at qbs (nz - 1) (put_blk sqn (Blk (b_left b) r (b_mat b)) qb), None, Some k)
        end
    | _ =>
        let! qb := at_ qbs (nz - 2) in
        let b := get_blk block0 lqn qb in
        match rgt with
        | [] =>
            let '(j, r) := posInBlock onsite (b_right b) in
            let '(l, lf) := posInBlock lft (b_left b) in
            Ok (put_at qbs (nz - 2) (put_blk lqn (Blk lf r (b_mat b ++ [(l, j, c)])%list) qb), Some j, None)
        | _ =>
            let '(j, r) := posInBlock (onsite ++ rgt)%list (b_right b) in
            let! qb' := at_ qbs (nz - 1) in
            let b' := get_blk block0 (qadd lqn sqn) qb' in
            let '(k, r') := posInBlock rgt (b_right b') in
            let '(l, lf) := posInBlock lft (b_left b) in
            Ok (put_at (put_at qbs (nz - 2) (put_blk lqn (Blk lf r (b_mat b ++ [(l, j, c)])%list) qb))
                  (nz - 1) (put_blk (qadd lqn sqn) (Blk (b_left b') r' (b_mat b')) qb'), Some j, Some k)
        end
    end in
  let co := match j with None => c | Some _ => r1 end in
  let! onsite' := match onsite with
                  | [] => Ok [ST (if isFp lft then "F" else "Id")%string n]
                  | _ => rewriteFermionic onsite (isFp lft)
                  end in
  let! tn := at_ temp (nz - 1) in
  Ok (qbs, put_at temp (nz - 1) (el_insert (El lqn (qadd lqn sqn) j k co onsite') tn)).

(** for(n = ht.first().i; n <= ht.last().i; ++n), autompo.cc:1035-1036; first() and last() of a term
    without operators read an empty vector. *)
Fixpoint part_sites (c : R) (ops : prod) (ns : list nat) (s : pstate) : outcome pstate :=
  match ns with
  | [] => Ok s
  | n :: ns' => let! s' := part_site c ops n s in part_sites c ops ns' s'
  end.
Definition part_term (h : @hterm R) (s : pstate) : outcome pstate :=
  match ht_ops h with
  | [] => UB
  | _ => let f := st_i (ht_first h) in let l := st_i (ht_last h) in
         part_sites (ht_coef h) (ht_ops h) (seq f (S l - f)) s
  end.
Fixpoint part_terms (terms : list (@hterm R)) (s : pstate) : outcome pstate :=
  match terms with
  | [] => Ok s
  | h :: terms' => let! s' := part_term h s in part_terms terms' s'
  end.
Definition partitionHTerms (N : nat) (terms : list (@hterm R)) : outcome pstate := part_terms terms (repeat [] N, repeat [] N).

(** Matrices V: number of columns and rows. *)
Notation vmat := (nat * list (list R))%type.
Definition vmat0 : vmat := (0, []).
(** V_npp of a link, autompo.cc:1195-1218. *)
Definition vmats (qb : list (Q * block)) : list (Q * vmat) := map (fun e => (fst e, vof (toMatrix (b_mat (snd e))))) qb.
(** The link Index, autompo.cc:1220-1246: the zero QN first, with two more values. *)
Definition link_of (V : list (Q * vmat)) : list (Q * nat) :=
  (q0, 2 + fst (get_blk vmat0 q0 V)) :: map (fun e => (fst e, fst (snd e))) (filter (fun e => negb (qeqb (fst e) q0)) V).
(** links.at(0), autompo.cc:1183-1184. *)
Definition link0 : list (Q * nat) := [(q0, 2)].

(** QNblockSize, index.cc:689-709: an error if the QN is missing. *)
Fixpoint blockSize (l : list (Q * nat)) (q : Q) : outcome nat :=
  match l with [] => Err | (q', m) :: l' => if qeqb q' q then Ok m else blockSize l' q end.

(** M(r,c) += z. *)
Definition madd (M : list (list R)) (r c : nat) (z : R) : outcome (list (list R)) :=
  let! row := oget M r in
  let! x := oget row c in
  Ok (upd r (upd c (radd x z) row) M).
Fixpoint madds (M : list (list R)) (l : list (nat * nat * R)) : outcome (list (list R)) :=
  match l with [] => Ok M | (r, c, z) :: l' => let! M' := madd M r c z in madds M' l' end.
(** V(k,i). *)
Definition vget (V : vmat) (k i : nat) : outcome R := let! row := oget (snd V) k in oget row i.
Fixpoint olist {X Y} (f : X -> outcome Y) (l : list X) : outcome (list Y) :=
  match l with [] => Ok [] | x :: l' => let! y := f x in let! ys := olist f l' in Ok (y :: ys) end.

(** What an element adds, autompo.cc:1313-1352. *)
Definition contribs (Vn Vp : list (Q * vmat)) (e : elem) : outcome (list (nat * nat * R)) :=
  let rs := if qeqb (e_rq e) q0 then 2 else 0 in
  let cs := if qeqb (e_cq e) q0 then 2 else 0 in
  match e_row e, e_col e with
  | None, None => Ok [(1, 0, e_coef e)]
  | None, Some k =>
      let V := get_blk vmat0 (e_cq e) Vp in
      olist (fun i => let! v := vget V k i in Ok (1, i + cs, rmul (e_coef e) v)) (seq 0 (fst V))
  | Some j, None =>
      let V := get_blk vmat0 (e_rq e) Vn in
      olist (fun r => let! v := vget V j r in Ok (r + rs, 0, rmul (e_coef e) (conj v))) (seq 0 (fst V))
  | Some j, Some k =>
      let Vr := get_blk vmat0 (e_rq e) Vn in
      let Vc := get_blk vmat0 (e_cq e) Vp in
      olist (fun rc => let! a := vget Vr j (fst rc) in let! b := vget Vc k (snd rc) in
                       Ok (fst rc + rs, snd rc + cs, rmul (rmul (e_coef e) (conj a)) b))
        (list_prod (seq 0 (fst Vr)) (seq 0 (fst Vc)))
  end.

(** MPOPiece = map<QNProd,Mat>, autompo.cc:1117-1132, as a list of entries (its order only changes
    the order of a sum). *)
Notation piece := (list ((Q * prod) * list (list R))).
Definition key_eqb (a b : Q * prod) : bool := qeqb (fst a) (fst b) && prod_eqb (snd a) (snd b).
Fixpoint get_piece (k : Q * prod) (p : piece) : list (list R) :=
  match p with [] => [] | (k', M) :: p' => if key_eqb k k' then M else get_piece k p' end.
Fixpoint put_piece (k : Q * prod) (M : list (list R)) (p : piece) : piece :=
  match p with [] => [(k, M)] | (k', M') :: p' => if key_eqb k k' then (k', M) :: p' else (k', M') :: put_piece k M p' end.

(** The loop over the elements of a site, autompo.cc:1270-1353. *)
Fixpoint add_elems (ll rl : list (Q * nat)) (Vn Vp : list (Q * vmat)) (es : list elem) (fm : piece) : outcome piece :=
  match es with
  | [] => Ok fm
  | e :: es' =>
      if tiny (e_coef e) then add_elems ll rl Vn Vp es' fm
      else
        let key := (e_rq e, e_ops e) in
        let M := get_piece key fm in
        let! M := match M with
                  | [] => let! rm := blockSize ll (e_rq e) in
                          let! cm := blockSize rl (e_cq e) in
                          Ok (repeat (repeat r0 cm) rm)
                  | _ => Ok M
                  end in
        let! l := contribs Vn Vp e in
        let! M' := madds M l in
        add_elems ll rl Vn Vp es' (put_piece key M' fm)
  end.
(** The pieces of site n: the identity entries first (autompo.cc:1248-1268). *)
Definition site_piece (n : nat) (ll rl : list (Q * nat)) (Vn Vp : list (Q * vmat)) (es : list elem) : outcome piece :=
  let! lm := blockSize ll q0 in
  let! rm := blockSize rl q0 in
  let! Id := madds (repeat (repeat r0 rm) lm) [(0, 0, r1); (1, 1, r1)] in
  add_elems ll rl Vn Vp es [((q0, [ST "Id"%string n]), Id)].

(** constructMPOTensors, autompo.cc:1374-1413: a piece goes to the block of its row QN rq and the
    column QN rq - div(Op); both must exist.  One element of the tensor of a site. *)
Definition piece_ok (ll rl : list (Q * nat)) (k : Q * prod) : outcome unit :=
  let! _ := blockSize ll (fst k) in let! _ := blockSize rl (qadd (fst k) (calcQN (snd k))) in Ok tt.
Definition went (n : nat) (fm : piece) (s s' : Q * nat) : R :=
  fold_right radd r0 (map (fun e : (Q * prod) * list (list R) => let '((q, p), M) := e in
    if qeqb q (fst s) && qeqb (qadd q (calcQN p)) (fst s') then rmul (nth (snd s') (nth (snd s) M []) r0) (val n p) else r0) fm).
(** The values of a link Index: block and position in the block. *)
Definition states (l : list (Q * nat)) : list (Q * nat) := flat_map (fun e => map (pair (fst e)) (seq 0 (snd e))) l.
Definition st_q (a b : Q * nat) : bool := qeqb (fst a) (fst b) && Nat.eqb (snd a) (snd b).

(** compressMPO and constructMPOTensors for the sites n, n+1, ..., given the row vector v that the
    sites before them multiply to. *)
Fixpoint sweep (n : nat) (ll : list (Q * nat)) (Vn : list (Q * vmat)) (qbs : list (list (Q * block))) (temp : list (list elem))
    (v : Q * nat -> R) : outcome (list (Q * nat) * (Q * nat -> R)) :=
  match qbs, temp with
  | qb :: qbs', es :: temp' =>
      let Vp := vmats qb in
      let rl := link_of Vp in
      let! fm := site_piece n ll rl Vn Vp es in
      let! _ := olist (fun e => piece_ok ll rl (fst e)) fm in
      sweep (S n) rl Vp qbs' temp'
        (fun s' => fold_right radd r0 (map (fun s => rmul (v s) (went n fm s s')) (states ll)))
  | _, _ => Ok (ll, v)
  end.

(** svdMPO, autompo.cc:1427-1478; the ends are closed with the second value of the first link and the
    first value of the last one (autompo.cc:1417-1425). *)
Definition svdMPO_elt (N : nat) (terms : list (@hterm R)) : outcome R :=
  let! (qbs, temp) := partitionHTerms N terms in
  let! s1 := oget (states link0) 1 in
  let! (l, v) := sweep 1 link0 [] qbs temp (fun s => if st_q s s1 then r1 else r0) in
  let! s0 := oget (states l) 0 in
  Ok (v s0).
End SvdMpo.
