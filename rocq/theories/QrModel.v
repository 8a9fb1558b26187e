(** Model of the QR decomposition of a tensor: itensor/decomp.cc (qr, qrImpl, qrOrd2),
    itensor/tensor/algs_impl.h (QR), itensor/tensor/algs.cc (detail::QR).
    The LAPACK routines geqrf and orgqr are one parameter [lap]: a function of the sizes and of the
    column-major elements, None when info != 0.  [neg x] is real(x) < 0.  Same conventions as SvdModel.v.
    Not modelled: the tags of the new index, the warning printed for more columns than rows. *)
From Coq Require Import List ZArith Lia Bool Arith.
From Verif Require Import Util RangeModel TensorModel ContractModel DenseModel QnModel QdModel CombinerModel QCombModel SvdModel.
Import ListNotations.
Open Scope outcome_scope.

Section Qr.
Context {R : Type} (r0 r1 : R) (ropp : R -> R) (neg : R -> bool).
Context (lap : nat -> nat -> nat -> list R -> option (list R * list R)).
Notation mview := (@mview R).

(** Element i of a row or column times -1 (algs_impl.h:346-347): [sel k] tells whether position k of the
    storage belongs to it. *)
Definition flip (sel : nat -> bool) (l : list R) : list R :=
  map (fun k => if sel k then ropp (nth k l r0) else nth k l r0) (seq 0 (length l)).
(** The sign convention (algs_impl.h:338-351): Q has M rows, R has k rows; step i. *)
Definition pos_step (M k : nat) (QR : list R * list R) (i : nat) : list R * list R :=
  let '(Q, Rm) := QR in
  if neg (nth (i + k * i) Rm r0)
  then (flip (fun p => p / M =? i) Q, flip (fun p => p mod k =? i) Rm)
  else (Q, Rm).
(** QR (algs_impl.h:289-352) with detail::QR (algs.cc:50-81): elements of Q (M rows, k columns) and R (k
    rows, N columns), and k.  R is zero where geqrf's result is not copied to it. *)
Definition qr_rows (complete : bool) (M N : nat) : nat := if M <? N then M else if complete then M else N.
Definition QR (complete positive : bool) (v : mview) : outcome (list R * list R * nat) :=
  let M := rn v in let N := cn v in
  if (M <? 1) || (N <? 1) then Err else
  let k := qr_rows complete M N in
  let a := map (fun p => if p / M <? N then nth ((p mod M) * rs v + (p / M) * cs v) (vd v) r0 else r0) (seq 0 (M * Nat.max N k)) in
  match lap M N k a with
  | None => Err
  | Some (h, q) =>
      let Rm := map (fun p => if p mod k <=? p / k then nth (p mod k + M * (p / k)) h r0 else r0) (seq 0 (k * N)) in
      let Q := firstn (M * k) q in
      let '(Q, Rm) := if positive then fold_left (pos_step M k) (seq 0 (Nat.min k N)) (Q, Rm) else (Q, Rm) in
      Ok (Q, Rm, k)
  end.

Section Dense.
Context {I : Type} (ieq : I -> I -> bool) (idim : I -> nat) (mk : nat -> nat -> I).

(** qrImpl without QNs (decomp.cc:996-1026): one new index. *)
Definition qr2 (upper complete positive : bool) (is : list I) (A : list R) (qI rI : I)
  : outcome (list I * list R * (list I * list R)) :=
  if negb complete && negb upper then Err else
  let! M := toMatRefc ieq idim is A qI rI in
  let! (Q, Rm, k) := QR complete positive M in
  let l := mk 0 k in
  Ok (([qI; l], Q), ([l; rI], Rm)).
(** qrOrd2 (decomp.cc:1175-1195). *)
Definition qrOrd2 (upper complete positive : bool) (is : list I) (A : list R) (qI rI : I) :=
  if negb (length is =? 2) then Err else qr2 upper complete positive is A qI rI.
(** qr (decomp.cc:926-975): [Qis], [Ris] are the indices of the Q and R passed in, None if default
    constructed; Q's decide if both are there.  A side without indices leaves the tensor with order other
    than 2, an error. *)
Definition dqr (debug upper complete positive : bool) (AA : list I) (A : list R) (Qis Ris : option (list I)) (junk : nat -> nat -> R)
  : outcome (list I * list R * (list I * list R)) :=
  let! (Qi, Ri) := svd_split ieq debug AA Qis Ris in
  match Qi, Ri with
  | [], _ | _, [] => Err
  | _, _ =>
    let! nu := combiner_dim idim Qi in
    let qI := mk 2 nu in
    let! (N1, A1) := times_combiner ieq idim debug AA A qI Qi (junk 0) in
    let! nv := combiner_dim idim Ri in
    let rI := mk 3 nv in
    let! (N2, A2) := times_combiner ieq idim debug N1 A1 rI Ri (junk 1) in
    let! (Q, Rm) := qrOrd2 upper complete positive N2 A2 qI rI in
    let! Q' := times_combiner ieq idim debug (fst Q) (snd Q) qI Qi (junk 2) in
    let! R' := times_combiner ieq idim debug (fst Rm) (snd Rm) rI Ri (junk 3) in
    Ok (Q', R')
  end.
End Dense.

Section QN.
Context {I : Type} (ieq : I -> I -> bool) (bs : I -> list nat) (qns : I -> list QN) (mk : nat -> list (QN * nat) -> I).

(** One block decomposed: row block, column block, rows, columns, elements of Q and R, rows of R. *)
Record qblock := QB { qb_i1 : nat; qb_i2 : nat; qb_m : nat; qb_n : nat; qb_q : list R; qb_r : list R; qb_k : nat }.
Definition qr_block (complete positive : bool) (b : nat * nat * mview) : outcome qblock :=
  let '(i1, i2, M) := b in let! (q, r, k) := QR complete positive M in Ok (QB i1 i2 (rn M) (cn M) q r k).

(** indLiq (decomp.cc:1054-1075): the blocks' numbers sorted by their column block.  The C++ sorts by
    column block, then sector, then number; no two blocks have the same column block. *)
Fixpoint ins (x : nat * nat) (l : list (nat * nat)) : list (nat * nat) :=
  match l with [] => [x] | y :: l' => if fst x <=? fst y then x :: l else y :: ins x l' end.
Definition sort_i2 (bl : list qblock) : list nat :=
  map snd (fold_right ins [] (List.combine (map qb_i2 bl) (seq 0 (length bl)))).
(** zerob (decomp.cc:1046-1048, 1053): the row blocks without a block of A, in order. *)
Definition zerob (qI : I) (bl : list qblock) : list nat :=
  filter (fun i => negb (existsb (fun b => qb_i1 b =? i) bl)) (seq 0 (length (bs qI))).
(** Rrows of a block (decomp.cc:1058, 1117). *)
Definition qb_rr (b : qblock) : nat := Nat.min (qb_k b) (qb_n b).

(** Liq (decomp.cc:1054-1100). *)
Definition qr_sectors (upper complete : bool) (qI : I) (bl : list qblock) (srt : list nat) : outcome (list (QN * nat)) :=
  let sec b k := let! q := oget (qns qI) (qb_i1 b) in Ok (q, k) in
  let! l1 := if upper then traverse (fun n => let! b := oget bl n in sec b (qb_rr b)) srt else traverse (fun b => sec b (qb_k b)) bl in
  let! l2 := if upper && complete then traverse (fun b => sec b (qb_m b - qb_n b)) (filter (fun b => 0 <? qb_m b - qb_n b) bl) else Ok [] in
  let! l3 := if complete then traverse (fun i => let! q := oget (qns qI) i in let! n := oget (bs qI) i in Ok (q, n)) (zerob qI bl) else Ok [] in
  Ok (l1 ++ l2 ++ l3).

(** A write of an nr x nc matrix into the block [i;j] of Q or of R: makeMatRef(p,nr,nc) &= c.  A null
    block, or more elements than the block has, is undefined behaviour. *)
Record write := WR { w_toR : bool; w_i : nat; w_j : nat; w_nr : nat; w_nc : nat; w_c : list R }.
Definition put_mat (x y : I) (D : qd R) (w : write) : outcome (qd R) :=
  let! nr := oget (bs x) (w_i w) in
  let! nc := oget (bs y) (w_j w) in
  let! ob := getBlock D [w_i w; w_j w] in
  match ob with
  | None => UB
  | Some o => let sz := w_nr w * w_nc w in
              if nr * nc <? sz then UB else
              let! c := segment 0 sz (w_c w) in
              let! _ := segment o sz (store D) in
              Ok (mkQD (offs D) (put_seg o c (store D)))
  end.
(** columns(Q,a,b) of a matrix with m rows; rows(R,0,t) of a matrix with k rows and n columns. *)
Definition columns (m a b : nat) (q : list R) : list R := firstn (m * (b - a)) (skipn (m * a) q).
Definition rows (k n t : nat) (r : list R) : list R := map (fun p => nth (p mod t + k * (p / t)) r r0) (seq 0 (t * n)).
(** The loop filling Q and R (decomp.cc:1109-1150): its writes in order; [b] counts the blocks, [e] is
    extrab. *)
Fixpoint loop_writes (upper complete : bool) (srt : list nat) (nb : nat) (bl : list qblock) (b e : nat) : list write * nat :=
  match bl with
  | [] => ([], e)
  | B :: bl' =>
      let n := if upper then nth b srt 0 else b in
      let t := qb_rr B in
      let fill := qb_m B - t in
      let filler := upper && complete && (0 <? fill) in
      let '(ws, e') := loop_writes upper complete srt nb bl' (S b) (if filler then S e else e) in
      (WR false (qb_i1 B) n (qb_m B) t (columns (qb_m B) 0 t (qb_q B)) ::
       (if filler then [WR false (qb_i1 B) (e + nb) (qb_m B) fill (columns (qb_m B) t (t + fill) (qb_q B))] else []) ++
       WR true n (qb_i2 B) t (qb_n B) (rows (qb_k B) (qb_n B) t (qb_r B)) :: ws, e')
  end.
(** The identity blocks (decomp.cc:1153-1169). *)
Definition ident (m : nat) : list R := map (fun p => if p mod m =? p / m then r1 else r0) (seq 0 (m * m)).
Fixpoint zero_writes (qI : I) (zs : list nat) (nb e : nat) : outcome (list write) :=
  match zs with
  | [] => Ok []
  | i :: zs' => let! m := oget (bs qI) i in
                let! t := zero_writes qI zs' nb (S e) in
                Ok (WR false i (e + nb) m m (ident m) :: t)
  end.
Fixpoint run_writes (qI l rI : I) (ws : list write) (Q Rm : qd R) : outcome (qd R * qd R) :=
  match ws with
  | [] => Ok (Q, Rm)
  | w :: ws' => if w_toR w then let! Rm' := put_mat l rI Rm w in run_writes qI l rI ws' Q Rm'
                else let! Q' := put_mat qI l Q w in run_writes qI l rI ws' Q' Rm
  end.

(** qrImpl with QNs (decomp.cc:1027-1173): qI has arrow du, rI arrow dv, A arrows dir.  No block is an
    error. *)
Definition qqr2 (upper complete positive : bool) (dir : I -> Arrow) (is : list I) (A : qd R) (qI rI : I) (du dv : Arrow)
  : outcome (list I * qd R * (list I * qd R)) :=
  if negb complete && negb upper then Err else
  let! blocks := getBlocks ieq bs is A rI in
  match blocks with
  | [] => Err
  | _ =>
    let! bl := traverse (qr_block complete positive) blocks in
    let srt := sort_i2 bl in
    let! Liq := qr_sectors upper complete qI bl srt in
    let l := mk 0 Liq in
    let! Q0 := qmake r0 bs qns (arrows2 ieq qI l du (arrow_neg du)) [qI; l] qn0 in
    let! dv' := calcDiv qns dir is A in
    let! R0 := qmake r0 bs qns (arrows2 ieq l rI du dv) [l; rI] dv' in
    match Q0, R0 with
    | Some Q0, Some R0 =>
        let '(ws, e) := loop_writes upper complete srt (length bl) bl 0 0 in
        let! zs := if complete then zero_writes qI (zerob qI bl) (length bl) e else Ok [] in
        let! (Q, Rm) := run_writes qI l rI (ws ++ zs) Q0 R0 in
        Ok (([qI; l], Q), ([l; rI], Rm))
    | _, _ => UB
    end
  end.
Definition qqrOrd2 (upper complete positive : bool) (dir : I -> Arrow) (is : list I) (A : qd R) (qI rI : I) (du dv : Arrow) :=
  if negb (length is =? 2) then Err else qqr2 upper complete positive dir is A qI rI du dv.

(** qr (decomp.cc:926-975) of a tensor with QNs whose indices have arrows dir. *)
Definition qqr (debug upper complete positive : bool) (dir : I -> Arrow) (AA : list I) (A : qd R) (Qis Ris : option (list I))
  : outcome (list I * qd R * (list I * qd R)) :=
  let! (Qi, Ri) := svd_split ieq debug AA Qis Ris in
  match Qi, Ri with
  | [], _ | _, [] => Err
  | _, _ =>
    let du := comb_dir dir None Qi in
    let dv := comb_dir dir None Ri in
    let! (qu, tu) := qcombiner bs qns dir du Qi in
    let qI := mk 2 qu in
    let Ru := comb_dirs ieq dir qI du in
    let! (N1, A1) := times_qcombiner r0 ieq bs qns debug dir Ru AA A qI Qi tu in
    let dir1 := dirC ieq dir Ru AA in
    let! (qv, tv) := qcombiner bs qns dir dv Ri in
    let rI := mk 3 qv in
    let Rv := comb_dirs ieq dir rI dv in
    let! (N2, A2) := times_qcombiner r0 ieq bs qns debug dir1 Rv N1 A1 rI Ri tv in
    let dir2 := dirC ieq dir1 Rv N1 in
    let! (Q, Rm) := qqrOrd2 upper complete positive dir2 N2 A2 qI rI du dv in
    match fst Q with
    | [_; l] =>
      let! Q' := times_qcombiner r0 ieq bs qns debug (arrows2 ieq qI l du (arrow_neg du)) (fun x => arrow_neg (Ru x)) (fst Q) (snd Q) qI Qi tu in
      let! R' := times_qcombiner r0 ieq bs qns debug (arrows2 ieq l rI du dv) (fun x => arrow_neg (Rv x)) (fst Rm) (snd Rm) rI Ri tv in
      Ok (Q', R')
    | _ => UB
    end
  end.
End QN.
End Qr.
