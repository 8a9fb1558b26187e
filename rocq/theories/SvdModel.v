(** Model of the singular value decomposition of a tensor: itensor/svd.cc (svdImpl, svdOrd2),
    itensor/decomp.cc (svd, toMatRefc, GetBlocks), itensor/tensor/algs_impl.h (SVD, SVDRefLAPACK),
    itensor/tensor/algs.cc (SVDRef), itensor/itdata/qdiag.h, qdiag.cc (the storage of D).
    The LAPACK routines gesdd and gesvd are parameters: functions of the sizes and the column-major
    elements, None when info != 0.  Same conventions as QdModel.v and CombinerModel.v.
    Not modelled: SVDMethod "ITensor" (SVDRefImpl), printing (ShowEigs), the returned Spectrum, the
    arguments UseOrigDim, Minm and Maxm.  How many singular values are kept (truncate and the selection
    of blocks, TruncateModel.v) is a parameter: [keep] maps the singular values of all blocks to the
    number kept of each.  [mk n q] is a new index (Index(...): a new id) with blocks q; n tells the new
    indices of one call apart. *)
From Coq Require Import List ZArith Lia Bool Arith.
From Verif Require Import Util RangeModel TensorModel ContractModel DenseModel QnModel QdModel CombinerModel QCombModel.
Import ListNotations.
Open Scope outcome_scope.

Fixpoint traverse {A B} (f : A -> outcome B) (l : list A) : outcome (list B) :=
  match l with [] => Ok [] | x :: l' => let! y := f x in let! t := traverse f l' in Ok (y :: t) end.

(** SVDMethod (algs_impl.h:385-408, algs.cc:609-623); any other name is an error. *)
Inductive svd_method := MAuto | MGesdd | MGesvd | MOther.

Section Svd.
Context {R : Type} (r0 : R) (conj : R -> R).
Context (gesdd gesvd : nat -> nat -> list R -> option (list R * list R * list R)).

(** MatRefc (tensor/mat.h, matrange.h): rows, row stride, columns, column stride, data. *)
Record mview := MV { rn : nat; rs : nat; cn : nat; cs : nat; vd : list R }.
(** makeMatRef (mat.h): column-major. *)
Definition makeMatRef (d : list R) (nr nc : nat) : mview := MV nr 1 nc nr d.
(** transpose (matrange.h). *)
Definition vtrans (v : mview) : mview := MV (cn v) (cs v) (rn v) (rs v) (vd v).
(** isTransposed (matrange.h:169-171). *)
Definition isTransposed (v : mview) : bool := (rs v =? cn v) && (cs v =? 1).

(** The copy handed to LAPACK (algs_impl.h:365-383), read from element [p] of the data on. *)
Definition lapack_copy (v : mview) (p : nat) : outcome (list R) :=
  let! s := segment p (rn v * cn v) (vd v) in
  Ok (if isTransposed v
      then map (fun k => nth ((k mod rn v) * cn v + k / rn v) s r0) (seq 0 (rn v * cn v))
      else s).
(** The reordering of V (algs_impl.h:420-427): position i of V is the conjugate of position
    (i%Mc)*l + i/Mc of what LAPACK left there. *)
Definition reorderV (Mc l : nat) (vt : list R) : list R :=
  map (fun i => conj (nth ((i mod Mc) * l + i / Mc) vt r0)) (seq 0 (l * Mc)).
(** SVDRefLAPACK (algs_impl.h:356-430).  The first copy of a transposed matrix has moved the pointer pA
    to the end of the data when gesvd is tried (386-395). *)
Definition SVDRefLAPACK (m : svd_method) (v : mview) : outcome (list R * list R * list R) :=
  let Mr := rn v in let Mc := cn v in
  let! cp := lapack_copy v 0 in
  let! r := match m with
            | MAuto => match gesdd Mr Mc cp with
                       | Some r => Ok r
                       | None => let! cp' := lapack_copy v (if isTransposed v then Mr * Mc else 0) in
                                 match gesvd Mr Mc cp' with Some r => Ok r | None => Err end
                       end
            | MGesdd => match gesdd Mr Mc cp with Some r => Ok r | None => Err end
            | MGesvd => match gesvd Mr Mc cp with Some r => Ok r | None => Err end
            | MOther => Err
            end in
  let '(u, d, vt) := r in Ok (u, d, reorderV Mc (Nat.min Mr Mc) vt).
(** SVDRef (algs.cc:587-627), SVD (algs_impl.h:203-217): the data of U (Mr rows), D, the data of V (Mc
    rows), column-major. *)
Definition SVD (m : svd_method) (v : mview) : outcome (list R * list R * list R) :=
  if cn v <? rn v
  then let! (v', d, u') := SVDRefLAPACK m (vtrans v) in Ok (map conj u', d, map conj v')
  else SVDRefLAPACK m v.
(** SVD followed by conjugate(VV) (svd.cc:98-102, 179-183). *)
Definition SVDc (m : svd_method) (v : mview) : outcome (list R * list R * list R) :=
  let! (u, d, w) := SVD m v in Ok (u, d, map conj w).

(** The result of svd: indices and storage of U, D and V. *)
Section Dense.
Context {I : Type} (ieq : I -> I -> bool) (idim : I -> nat) (mk : nat -> nat -> I).
Context (keep : list (list R) -> list nat).

(** toMatRefc (decomp.cc:71-80). *)
Definition toMatRefc (is : list I) (d : list R) (i1 i2 : I) : outcome mview :=
  match is with
  | [] => UB
  | x :: _ => if ieq i1 x then Ok (makeMatRef d (idim i1) (idim i2))
              else Ok (vtrans (makeMatRef d (idim i2) (idim i1)))
  end.

(** svdImpl without QNs (svd.cc:90-163): new indices uL and vL; the storage of D holds the diagonal. *)
Definition svd2 (m : svd_method) (is : list I) (A : list R) (uI vI : I)
  : outcome (list I * list R * (I * I * list R) * (list I * list R)) :=
  let! M := toMatRefc is A uI vI in
  let! (u, d, w) := SVDc m M in
  let k := nth 0 (keep [d]) 0 in
  let uL := mk 0 k in let vL := mk 1 k in
  Ok (([uI; uL], firstn (idim uI * k) u), (uL, vL, firstn k d), ([vI; vL], firstn (idim vI * k) w)).

(** svdOrd2 (svd.cc:445-448). *)
Definition svdOrd2 (m : svd_method) (is : list I) (A : list R) (uI vI : I) :=
  if negb (length is =? 2) then Err else svd2 m is A uI vI.

(** svd (decomp.cc:120-228): [Uis], [Vis] are the indices of the U and V passed in, None if default
    constructed.  A side without indices leaves the tensor with order other than 2, an error. *)
Definition svd_split (debug : bool) (AA : list I) (Uis Vis : option (list I)) : outcome (list I * list I) :=
  match Uis, Vis with
  | None, None => if debug then Err else Ok (AA, [])
  | Some u, _ => Ok (filter (fun x => existsb (ieq x) u) AA, filter (fun x => negb (existsb (ieq x) u)) AA)
  | None, Some v => Ok (filter (fun x => negb (existsb (ieq x) v)) AA, filter (fun x => existsb (ieq x) v) AA)
  end.
Definition dsvd (debug : bool) (m : svd_method) (AA : list I) (A : list R) (Uis Vis : option (list I)) (junk : nat -> nat -> R)
  : outcome (list I * list R * (I * I * list R) * (list I * list R)) :=
  let! (Ui, Vi) := svd_split debug AA Uis Vis in
  match Ui, Vi with
  | [], _ | _, [] => Err
  | _, _ =>
    let! nu := combiner_dim idim Ui in
    let uI := mk 2 nu in
    let! (N1, A1) := times_combiner ieq idim debug AA A uI Ui (junk 0) in
    let! nv := combiner_dim idim Vi in
    let vI := mk 3 nv in
    let! (N2, A2) := times_combiner ieq idim debug N1 A1 vI Vi (junk 1) in
    let! (U, D, V) := svdOrd2 m N2 A2 uI vI in
    let! U' := times_combiner ieq idim debug (fst U) (snd U) uI Ui (junk 2) in
    let! V' := times_combiner ieq idim debug (fst V) (snd V) vI Vi (junk 3) in
    Ok (U', D, V')
  end.
End Dense.

Section QN.
Context {I : Type} (ieq : I -> I -> bool) (bs : I -> list nat) (qns : I -> list QN) (mk : nat -> list (QN * nat) -> I).
Context (keep : list (list R) -> list nat).

(** doTask(GetBlocks) (decomp.cc:87-113) with GetBlocks' constructor (decomp.h:437-451): for every stored
    block the row block, the column block and the matrix. *)
Definition getBlocks (is : list I) (d : qd R) (i2 : I) : outcome (list (nat * nat * mview)) :=
  match is with
  | [x; y] =>
      traverse (fun bo => match fst bo with
                          | [a; b] => let! nrow := oget (bs x) a in
                                      let! ncol := oget (bs y) b in
                                      let! s := segment (snd bo) (nrow * ncol) (store d) in
                                      let M := makeMatRef s nrow ncol in
                                      Ok (if ieq i2 x then (b, a, vtrans M) else (a, b, M))
                          | _ => UB
                          end) (offs d)
  | _ => Err
  end.

(** One block decomposed: row block, column block, elements of U, singular values, elements of V. *)
Notation sblock := (nat * nat * list R * list R * list R)%type.
Definition svd_block (m : svd_method) (b : nat * nat * mview) : outcome sblock :=
  let '(i1, i2, M) := b in let! (u, d, w) := SVDc m M in Ok (i1, i2, u, d, w).
Definition sb_d (b : sblock) : list R := snd (fst b).

(** Liq and Riq (svd.cc:254-306): blocks of which nothing is kept are left out. *)
Fixpoint new_sectors (side : sblock -> nat) (x : I) (l : list sblock) (ks : list nat) : outcome (list (QN * nat)) :=
  match l, ks with
  | b :: l', k :: ks' => let! t := new_sectors side x l' ks' in
                         if k =? 0 then Ok t else let! q := oget (qns x) (side b) in Ok ((q, k) :: t)
  | _, _ => Ok []
  end.
Definition sb_i1 (b : sblock) : nat := fst (fst (fst (fst b))).
Definition sb_i2 (b : sblock) : nat := snd (fst (fst (fst b))).
Definition sb_u (b : sblock) : list R := snd (fst (fst b)).
Definition sb_v (b : sblock) : list R := snd b.

(** computeLength, QDiag(is) (qdiag.cc:117-136): one element per value, all zero. *)
Definition qdiag_make (l r : I) : outcome (list R) :=
  if idim bs l =? idim bs r then Ok (repeat r0 (idim bs l)) else Err.
(** diagBlockBounds and getBlock for the block (n,n) (qdiag.h:291-335). *)
Definition diag_bounds (l r : I) (n : nat) : outcome (nat * nat) :=
  let! p1 := select (bs l) (seq 0 n) in let! m1 := oget (bs l) n in
  let! p2 := select (bs r) (seq 0 n) in let! m2 := oget (bs r) n in
  let s1 := list_sum p1 in let s2 := list_sum p2 in
  Ok (Nat.max s1 s2, Nat.min (s1 + m1) (s2 + m2)).

(** Uref &= UU, for the block [i;n] of a QDense over [x;l]: the first columns of the elements [e].
    A null block is written to. *)
Definition put_block (x l : I) (i n : nat) (D : qd R) (e : list R) : outcome (qd R) :=
  let! nr := oget (bs x) i in
  let! nc := oget (bs l) n in
  let! ob := getBlock D [i; n] in
  match ob with
  | None => UB
  | Some o => let! c := segment 0 (nr * nc) e in
              let! _ := segment o (nr * nc) (store D) in
              Ok (mkQD (offs D) (put_seg o c (store D)))
  end.
Definition put_diag (l r : I) (n : nat) (D d : list R) : outcome (list R) :=
  let! (nb, ne) := diag_bounds l r n in
  if ne <=? nb then UB else
  let! _ := segment nb (length d) D in Ok (put_seg nb d D).

(** The loop filling U, D and V (svd.cc:324-384). *)
Fixpoint fill_loop (uI vI l r : I) (bl : list sblock) (ks : list nat) (n : nat) (U : qd R) (D : list R) (V : qd R)
  : outcome (qd R * list R * qd R) :=
  match bl, ks with
  | b :: bl', k :: ks' =>
      if k =? 0 then fill_loop uI vI l r bl' ks' n U D V
      else let! U' := put_block uI l (sb_i1 b) n U (sb_u b) in
           let! D' := put_diag l r n D (firstn k (sb_d b)) in
           let! V' := put_block vI r (sb_i2 b) n V (sb_v b) in
           fill_loop uI vI l r bl' ks' (S n) U' D' V'
  | _, _ => Ok (U, D, V)
  end.

Definition arrows2 (x l : I) (dx dl : Arrow) (y : I) : Arrow := if ieq y x then dx else if ieq y l then dl else ArrNeither.

(** svdImpl with QNs (svd.cc:165-397): uI has arrow du, vI arrow dv.  No block is an error; nothing kept
    at all gives an index without blocks (an error in a DEBUG build, 308-311; undefined here otherwise). *)
Definition qsvd2 (m : svd_method) (is : list I) (A : qd R) (uI vI : I) (du dv : Arrow)
  : outcome (list I * qd R * (I * I * list R) * (list I * qd R)) :=
  let! blocks := getBlocks is A vI in
  match blocks with
  | [] => Err
  | _ =>
    if (idim bs uI =? 0) || (idim bs vI =? 0) then Err else
    let! bl := traverse (svd_block m) blocks in
    let ks := keep (map sb_d bl) in
    let! Liq := new_sectors sb_i1 uI bl ks in
    let! Riq := new_sectors sb_i2 vI bl ks in
    match Liq with
    | [] => UB
    | _ =>
      let l := mk 0 Liq in let r := mk 1 Riq in
      let! U0 := qmake r0 bs qns (arrows2 uI l du (arrow_neg du)) [uI; l] qn0 in
      let! V0 := qmake r0 bs qns (arrows2 vI r dv (arrow_neg dv)) [vI; r] qn0 in
      let! D0 := qdiag_make l r in
      match U0, V0 with
      | Some U0, Some V0 =>
          let! (U, D, V) := fill_loop uI vI l r bl ks 0 U0 D0 V0 in
          Ok (([uI; l], U), (l, r, D), ([vI; r], V))
      | _, _ => UB
      end
    end
  end.
Definition qsvdOrd2 (m : svd_method) (is : list I) (A : qd R) (uI vI : I) (du dv : Arrow) :=
  if negb (length is =? 2) then Err else qsvd2 m is A uI vI du dv.

(** svd (decomp.cc:120-228) of a tensor with QNs whose indices have arrows dir: also the arrows of the
    returned U and V.  combiner's tensor has the arrow du on its combined index and the opposite arrows
    on the others (itensor.cc:1559-1570); dag turns all of them. *)
Definition comb_dirs (dir : I -> Arrow) (c : I) (dc : Arrow) (x : I) : Arrow := if ieq x c then dc else arrow_neg (dir x).
Definition qsvd (debug : bool) (m : svd_method) (dir : I -> Arrow) (AA : list I) (A : qd R) (Uis Vis : option (list I))
  : outcome (list I * qd R * (I * I * list R) * (list I * qd R)) :=
  let! (Ui, Vi) := svd_split ieq debug AA Uis Vis in
  match Ui, Vi with
  | [], _ | _, [] => Err
  | _, _ =>
    let du := comb_dir dir None Ui in
    let dv := comb_dir dir None Vi in
    let! (qu, tu) := qcombiner bs qns dir du Ui in
    let uI := mk 2 qu in
    let Ru := comb_dirs dir uI du in
    let! (N1, A1) := times_qcombiner r0 ieq bs qns debug dir Ru AA A uI Ui tu in
    let dir1 := dirC ieq dir Ru AA in
    let! (qv, tv) := qcombiner bs qns dir dv Vi in
    let vI := mk 3 qv in
    let Rv := comb_dirs dir vI dv in
    let! (N2, A2) := times_qcombiner r0 ieq bs qns debug dir1 Rv N1 A1 vI Vi tv in
    let! (U, (l, r, D), V) := qsvdOrd2 m N2 A2 uI vI du dv in
    let! U' := times_qcombiner r0 ieq bs qns debug (arrows2 uI l du (arrow_neg du)) (fun x => arrow_neg (Ru x)) (fst U) (snd U) uI Ui tu in
    let! V' := times_qcombiner r0 ieq bs qns debug (arrows2 vI r dv (arrow_neg dv)) (fun x => arrow_neg (Rv x)) (fst V) (snd V) vI Vi tv in
    Ok (U', (l, r, D), V')
  end.
End QN.
End Svd.
