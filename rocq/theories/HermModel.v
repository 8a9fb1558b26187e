(** Model of Hermitian diagonalisation: itensor/decomp.cc (diagPosSemiDef, diagHermitian, expHermitian),
    itensor/hermitian.cc (diagHImpl, diag_hermitian), itensor/tensor/algs_impl.h (diagHermitian).
    LAPACK's dsyev/zheev is a parameter [heev]: a function of the size and the column-major elements, None
    when info != 0.  Same conventions as SvdModel.v: [keep] tells how many eigenvalues of every block
    truncate keeps (TruncateModel.v), [mk] makes new indices.  An index is a pair: the index without its
    prime level, and the prime level (noPrime, primeLevel: index.h).
    Not modelled: the scale of the tensor (LogNum, C33; 1 here), the returned Spectrum, printing, the check
    m > maxdim (m is at most maxdim after truncate and origdim without). *)
From Coq Require Import List ZArith Lia Bool Arith.
From Verif Require Import Util RangeModel TensorModel TensorSpec QdSpec ContractModel DenseModel QnModel QdModel CombinerModel QCombModel SvdModel.
Import ListNotations.
Open Scope outcome_scope.

Section Herm.
Context {R : Type} (r0 : R) (ropp conj : R -> R).
Context (heev : nat -> list R -> option (list R * list R)).

(** isContiguous (tensor/matrange.h:169-179). *)
Definition vcontig (v : @mview R) : bool := (rs v =? 1) && (cs v =? rn v) || isTransposed v.
(** diagHermitian (tensor/algs_impl.h:91-138) with copyNegElts (24-34): the raw data of a contiguous matrix,
    transposed or not, else the elements column after column. *)
Definition diagH (v : @mview R) : outcome (list R * list R) :=
  let N := cn v in
  if N <? 1 then Err else
  if negb (N =? rn v) then Err else
  let! a := if vcontig v then segment 0 (N * N) (vd v)
            else Ok (map (fun k => nth ((k mod N) * rs v + (k / N) * cs v) (vd v) r0) (seq 0 (N * N))) in
  match heev N (map ropp a) with
  | None => Err
  | Some (u, w) => Ok (if isTransposed v then map conj u else u, map ropp w)
  end.
(** diagHermitian and conjugate(UU) (hermitian.cc:124-128, 236-237). *)
Definition diagHc (v : @mview R) : outcome (list R * list R) :=
  let! (u, d) := diagH v in Ok (map conj u, d).

Section Inds.
Context {J : Type} (jeq : J -> J -> bool).
Notation I := (J * nat)%type.
(** Index operator== (index.h): same id and tags, same prime level. *)
Definition ieqp (a b : I) : bool := jeq (fst a) (fst b) && (snd a =? snd b).
(** prime(x,p) (index.h). *)
Definition primep (p : nat) (x : I) : I := (fst x, snd x + p).

Fixpoint ins (x : nat) (l : list nat) : list nat :=
  match l with [] => [x] | y :: l' => if x <=? y then x :: l else y :: ins x l' end.
(** std::sort of the prime levels. *)
Fixpoint isort (l : list nat) : list nat := match l with [] => [] | x :: l' => ins x (isort l') end.

(** The analysis of the prime levels (decomp.cc:736-770): pdiff and the indices to combine. *)
Definition find_pairs (AA : list I) : outcome (nat * list I) :=
  match AA with
  | [] => UB
  | k :: _ =>
      let kps := isort (map snd (filter (fun i => jeq (fst i) (fst k)) AA)) in
      let nk := length kps in
      if (nk <=? 1) || negb (nk mod 2 =? 0) then Err else
      let idiff := nth (nk / 2 - 1) kps 0 - hd 0 kps in
      let mdiff := last kps 0 - hd 0 kps in
      let pdiff := mdiff - idiff in
      let inds := flat_map (fun i => flat_map (fun j => if jeq (fst i) (fst j) && (snd i + pdiff =? snd j) then [i] else []) AA) AA in
      if (length inds =? 0) || negb (length AA / 2 =? length inds) then Err else Ok (pdiff, inds)
  end.
(** The index with the lower prime level and the difference (hermitian.cc:105-110, 187-190). *)
Definition active (i1 i2 : I) : I * nat :=
  (if snd i1 <? snd i2 then i1 else i2, if snd i1 <? snd i2 then snd i2 - snd i1 else snd i1 - snd i2).
End Inds.

Section Dense.
Context {J : Type} (jeq : J -> J -> bool) (jdim : J -> nat) (mk : nat -> nat -> J).
Notation I := (J * nat)%type.
Context (keep : list (list R) -> list nat) (clamp : R -> R).
Notation ieq := (ieqp jeq).
Definition jdimp (x : I) : nat := jdim (fst x).
Notation idim := jdimp.

(** diagHImpl without QNs (hermitian.cc:96-173).  With truncation the eigenvalues in D are those truncate
    leaves in its argument: [clamp] of the kept ones (algs.h truncate sets negative ones to zero). *)
Definition diag2 (tr : bool) (is : list I) (A : list R) : outcome (list I * list R * (I * nat * list R)) :=
  match is with
  | [i1; i2] =>
      let (ai, pd) := active i1 i2 in
      let! M := toMatRefc ieq idim is A ai (primep 1 ai) in
      let! (u, d) := diagHc M in
      let k := if tr then nth 0 (keep [d]) 0 else length d in
      let l := (mk 0 k, 0) in
      Ok (([ai; l], firstn (idim ai * k) u), (l, pd, if tr then map clamp (firstn k d) else d))
  | _ => Err
  end.
(** diagPosSemiDef (decomp.cc:726-797; [tr] is Truncate) and diagHermitian (811-820; Truncate false):
    indices and elements of U; D is diagonal on prime(l,pd) and l. *)
Definition ddiag (debug tr : bool) (AA : list I) (A : list R) (junk : nat -> nat -> R)
  : outcome (list I * list R * (I * nat * list R)) :=
  let! (p, is) := find_pairs jeq AA in
  let! n := combiner_dim idim is in
  let c := (mk 1 n, 0) in
  let! (N1, A1) := times_combiner ieq idim debug AA A c is (junk 0) in
  let! (N2, A2) := times_combiner ieq idim debug N1 A1 (primep p c) (map (primep p) is) (junk 1) in
  let! (U, D) := diag2 tr N2 A2 in
  let! U' := times_combiner ieq idim debug (fst U) (snd U) c is (junk 2) in
  Ok (U', D).
End Dense.

Section QN.
Context {J : Type} (jeq : J -> J -> bool) (jbs : J -> list nat) (jqns : J -> list QN) (mk : nat -> list (QN * nat) -> J).
Notation I := (J * nat)%type.
Context (keep : list (list R) -> list nat).
Notation ieq := (ieqp jeq).
Definition bsp (x : I) : list nat := jbs (fst x).
Definition qnsp (x : I) : list QN := jqns (fst x).
Notation bs := bsp.
Notation qns := qnsp.

(** One block diagonalised: row block, column block, elements of U, eigenvalues. *)
Notation sblock := (nat * nat * list R * list R * list R)%type.
Definition herm_block (b : nat * nat * mview) : outcome sblock :=
  let '(i1, i2, M) := b in let! (u, d) := diagHc M in Ok (i1, i2, u, d, []).

(** The loop filling U and D (hermitian.cc:371-408). *)
Fixpoint hfill (ai d d' : I) (bl : list sblock) (ks : list nat) (n : nat) (U : qd R) (D : list R) : outcome (qd R * list R) :=
  match bl, ks with
  | b :: bl', k :: ks' =>
      if k =? 0 then hfill ai d d' bl' ks' n U D
      else let! U' := put_block bs ai d (sb_i1 b) n U (sb_u b) in
           let! D' := put_diag bs d' d n D (firstn k (sb_d b)) in
           hfill ai d d' bl' ks' (S n) U' D'
  | _, _ => Ok (U, D)
  end.

(** diagHImpl with QNs (hermitian.cc:174-428); the indices have arrows dir.  If nothing is kept the new
    index gets one block of size 1 (354-359) and U and D stay zero.  A DEBUG build checks that the flux is
    zero (192-199). *)
Definition qdiag2 (debug tr : bool) (dir : I -> Arrow) (is : list I) (A : qd R) : outcome (list I * qd R * (I * nat * list R)) :=
  match is with
  | [i1; i2] =>
      let (ai, pd) := active i1 i2 in
      let! q := calcDiv qns dir is A in
      if debug && negb (qn_eqb q qn0) then Err else
      let! blocks := getBlocks ieq bs is A (primep pd ai) in
      let! bl := traverse herm_block blocks in
      let ks := if tr then keep (map sb_d bl) else map (fun b => length (sb_d b)) bl in
      let! iq := new_sectors qns sb_i1 ai bl ks in
      let! iq := match iq with
                 | [] => match bl with [] => Err | b :: _ => let! q := oget (qns ai) (sb_i1 b) in Ok [(q, 1)] end
                 | _ => Ok iq
                 end in
      let l := (mk 0 iq, 0) in
      let! U0 := qmake r0 bs qns (arrows2 ieq ai l (arrow_neg (dir ai)) (dir ai)) [ai; l] qn0 in
      let! D0 := qdiag_make r0 bs (primep pd l) l in
      match U0 with
      | Some U0 => let! (U, D) := hfill ai l (primep pd l) bl ks 0 U0 D0 in Ok (([ai; l], U), (l, pd, D))
      | None => UB
      end
  | _ => Err
  end.

(** diagPosSemiDef and diagHermitian (decomp.cc:726-820) of a tensor with QNs whose indices have arrows
    dir.  comb has the arrow dc on its combined index and the opposite arrows on the others; combP is
    dag(prime(comb,pdiff)), with the same table. *)
Definition unprimep (p : nat) (x : I) : I := (fst x, snd x - p).
Definition qdiag (debug tr : bool) (dir : I -> Arrow) (AA : list I) (A : qd R) : outcome (list I * qd R * (I * nat * list R)) :=
  let! (p, is) := find_pairs jeq AA in
  let dc := comb_dir dir None is in
  let! (qm, tab) := qcombiner bs qns dir dc is in
  let c := (mk 1 qm, 0) in
  let Rc := comb_dirs ieq dir c dc in
  let Rp := fun x => arrow_neg (Rc (unprimep p x)) in
  let! (N1, A1) := times_qcombiner r0 ieq bs qns debug dir Rc AA A c is tab in
  let dir1 := dirC ieq dir Rc AA in
  let! (N2, A2) := times_qcombiner r0 ieq bs qns debug dir1 Rp N1 A1 (primep p c) (map (primep p) is) tab in
  let dir2 := dirC ieq dir1 Rp N1 in
  let! (U, (l, pd, D)) := qdiag2 debug tr dir2 N2 A2 in
  let dirU := arrows2 ieq c l (arrow_neg dc) dc in
  let! U' := times_qcombiner r0 ieq bs qns debug dirU Rc (fst U) (snd U) c is tab in
  Ok (U', (l, pd, D)).
End QN.

(** A tensor as its indices and elements; operator* (the sum over the common indices: C16, C18, C20). *)
Section Exp.
Context (radd rmul : R -> R -> R) {J : Type} (jeq : J -> J -> bool) (idim : J * nat -> nat).
Notation I := (J * nat)%type.
Notation ieq := (ieqp jeq).
Notation tens := (list I * ((I -> nat) -> R))%type.
Definition common (a b : list I) : list I := filter (fun x => existsb (ieq x) b) a.
Definition others (a b : list I) : list I := filter (fun x => negb (existsb (ieq x) b)) a.
Fixpoint sum_ix (is : list I) (f : (I -> nat) -> R) (s : I -> nat) : R :=
  match is with
  | [] => f s
  | x :: is' => sumn r0 radd (idim x) (fun v => sum_ix is' f (fun y => if ieq y x then v else s y))
  end.
Definition tmul (a b : tens) : tens :=
  (others (fst a) (fst b) ++ others (fst b) (fst a),
   fun s => sum_ix (common (fst a) (fst b)) (fun t => rmul (snd a t) (snd b t)) s).
(** prime(U)*d*dag(U) (decomp.cc:909-925) after d.apply(Exp): [f] is x -> exp(t*x), applied to the stored
    elements of the diagonal tensor d on prime(l,pd) and l. *)
Definition expH (f : R -> R) (Uix : list I) (U : (I -> nat) -> R) (l : I) (pd : nat) (D : list R) : tens :=
  let U' := (map (primep 1) Uix, fun s => U (fun x => s (primep 1 x))) in
  let d := ([primep pd l; l], fun s => if s (primep pd l) =? s l then nth (s l) (map f D) r0 else r0) in
  let Ud := (Uix, fun s => conj (U s)) in
  tmul (tmul U' d) Ud.
End Exp.

(** expHermitian (decomp.cc:909-925) of a tensor without, and with, quantum numbers: diagHermitian, then
    the function of the diagonal tensor, then the product. *)
Section ExpH.
Context (radd rmul : R -> R -> R) {J : Type} (jeq : J -> J -> bool).
Notation I := (J * nat)%type.
Definition dexp (jdim : J -> nat) (mk : nat -> nat -> J) (debug : bool) (f : R -> R) (AA : list I) (A : list R) (junk : nat -> nat -> R)
  : outcome (list I * ((I -> nat) -> R)) :=
  let! (U, D) := ddiag jeq jdim mk (map (@length R)) (fun x => x) debug false AA A junk in
  Ok (expH radd rmul jeq (jdimp jdim) f (fst U) (TensorSpec.elt r0 (jdimp jdim) (fst U) (snd U)) (fst (fst D)) (snd (fst D)) (snd D)).
Definition qexp (jbs : J -> list nat) (jqns : J -> list QN) (mk : nat -> list (QN * nat) -> J) (debug : bool) (f : R -> R) (dir : I -> Arrow) (AA : list I) (A : qd R)
  : outcome (list I * ((I -> nat) -> R)) :=
  let! (U, D) := qdiag jeq jbs jqns mk (map (@length R)) debug false dir AA A in
  Ok (expH radd rmul jeq (QdSpec.total (bsp jbs)) f (fst U) (QdSpec.qval r0 (bsp jbs) (fst U) (snd U)) (fst (fst D)) (snd (fst D)) (snd D)).
End ExpH.
End Herm.
