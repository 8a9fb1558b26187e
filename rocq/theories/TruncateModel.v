(** Model of spectrum truncation (itensor/decomp.cc:305-463) and of the
    per-QN-block selection of kept values (itensor/svd.cc:224-301,
    itensor/hermitian.cc:259-351).

    Simplification: Real is modelled by the exact rationals [Q] (no rounding,
    no NaN or infinity), and the Vector [P] by a list.  A read of P outside
    its range is [UB]. *)
From Coq Require Import List ZArith QArith Qabs Lia Bool.
From Verif Require Import Util.
Import ListNotations.
Open Scope Q_scope.
Open Scope outcome_scope.

(** itensor/decomp.cc:31: REAL_EPSILON = numeric_limits<Real>::epsilon() = 2^-52. *)
Definition REAL_EPSILON : Q := 1 # 4503599627370496.

Definition Qltb (a b : Q) : bool := negb (Qle_bool b a).

(** The four returned numbers (decomp.cc:304) and the resized Vector P. *)
Record tr_result := mkTR {
  tr_kept : list Q;         (* P after resize *)
  tr_truncerr : Q;
  tr_docut_lower : Q;
  tr_docut_upper : Q;
  tr_ndegen_below : nat
}.

(** decomp.cc:355-359: zero negative values from the end, stop at the first
    value that is not negative. *)
Fixpoint zero_trailing_rev (r : list Q) : list Q :=
  match r with
  | [] => []
  | p :: t => if Qle_bool 0 p then p :: t else 0 :: zero_trailing_rev t
  end.
Definition zero_trailing (P : list Q) : list Q :=
  rev (zero_trailing_rev (rev P)).

(** decomp.cc:363-367: while(n >= maxdim) { truncerr += P(n); --n; }
    The argument [m] is n+1. *)
Fixpoint cut_maxdim (P : list Q) (maxdim : Z) (m : nat) (err : Q)
  : outcome (nat * Q) :=
  match m with
  | O => if (maxdim <=? -1)%Z then UB else Ok (O, err)
  | S n => if (maxdim <=? Z.of_nat n)%Z
           then let! p := oget P n in cut_maxdim P maxdim n (err + p)
           else Ok (S n, err)
  end.

(** decomp.cc:373-376: for(; P(n) <= cutoff && n >= mindim; --n) truncerr += P(n); *)
Fixpoint cut_absolute (P : list Q) (mindim : Z) (cutoff : Q) (m : nat) (err : Q)
  : outcome (nat * Q) :=
  match m with
  | O => UB                                (* reads P(-1) *)
  | S n => let! p := oget P n in
           if (Qle_bool p cutoff && (mindim <=? Z.of_nat n)%Z)%bool
           then cut_absolute P mindim cutoff n (err + p)
           else Ok (S n, err)
  end.

(** decomp.cc:390-394: while(truncerr+P(n) <= cutoff*scale && n >= mindim)
    { truncerr += P(n); --n; } *)
Fixpoint cut_sum (P : list Q) (mindim : Z) (bound : Q) (m : nat) (err : Q)
  : outcome (nat * Q) :=
  match m with
  | O => UB                                (* reads P(-1) *)
  | S n => let! p := oget P n in
           if (Qle_bool (err + p) bound && (mindim <=? Z.of_nat n)%Z)%bool
           then cut_sum P mindim bound n (err + p)
           else Ok (S n, err)
  end.

(** sumels(P) (itensor/tensor/vec.cc:263-270). *)
Fixpoint sumels (P : list Q) : Q :=
  match P with [] => 0 | p :: t => p + sumels t end.

(** decomp.cc:369-396: the absolute or the summed criterion. *)
Definition cut_cutoff (P : list Q) (mindim : Z) (cutoff : Q)
  (absoluteCutoff doRelCutoff : bool) (m : nat) (err : Q) : outcome (nat * Q) :=
  if absoluteCutoff then cut_absolute P mindim cutoff m err
  else
    let scale := if doRelCutoff
                 then (let s := sumels P in if Qeq_bool s 0 then 1 else s)
                 else 1 in
    let! r := cut_sum P mindim (cutoff * scale) m err in
    let (m', err') := r in
    Ok (m', if Qeq_bool scale 0 then 0 else err' / scale).

(** decomp.cc:414-422: how many values just before position [j] are within
    [dc] of [v]; the loop's counter starts at 1 and the caller adds it. *)
Fixpoint degen_before (P : list Q) (v dc : Q) (j : nat) : nat :=
  match j with
  | O => O
  | S j' => match nth_error P j' with
            | Some p => if Qltb (Qabs (p - v)) dc then S (degen_before P v dc j') else O
            | None => O
            end
  end.

(** decomp.cc:424-432: how many values of the discarded part, from its start,
    are within [dc] of [v]. *)
Fixpoint degen_after (rest : list Q) (v dc : Q) : nat :=
  match rest with
  | [] => O
  | p :: t => if Qltb (Qabs (p - v)) dc then S (degen_after t v dc) else O
  end.

(** truncate (decomp.cc:305-463). *)
Definition truncate (P : list Q) (maxdim mindim : Z) (cutoff : Q)
  (absoluteCutoff doRelCutoff respectDegenerate : bool) : outcome tr_result :=
  let origm := length P in
  let! P0 := oget P 0 in
  if Qeq_bool P0 0 then                                        (* 323-331 *)
    Ok (mkTR (firstn 1 P) 0 (- REAL_EPSILON) REAL_EPSILON 1)
  else if Nat.eqb origm 1 then                                 (* 333-340 *)
    let dc := (1 # 1000) * P0 in
    Ok (mkTR P 0 (P0 - dc) (P0 + dc) 1)
  else
    let P1 := map (fun p => p / P0) P in                       (* 345-346 *)
    let cutoff1 := if (absoluteCutoff || negb doRelCutoff)%bool
                   then cutoff / P0 else cutoff in             (* 349-352 *)
    let P2 := zero_trailing P1 in                              (* 355-359 *)
    let! r1 := cut_maxdim P2 maxdim origm 0 in                 (* 361-367 *)
    let (m1, err1) := r1 in
    let! r2 := cut_cutoff P2 mindim cutoff1 absoluteCutoff doRelCutoff m1 err1 in
    let (m2, err2) := r2 in
    let m := if Nat.eqb m2 0 then 1%nat else m2 in             (* 398-402 *)
    let n := (m - 1)%nat in
    let! Pn := oget P2 n in
    let dc := if Qeq_bool Pn 0 then REAL_EPSILON else (1 # 1000) * Pn in (* 404-408 *)
    let below := S (degen_before P2 Pn dc n) in                (* 414-422 *)
    let above := degen_after (skipn m P2) Pn dc in             (* 424-432 *)
    let (m', below') :=                                        (* 437-452 *)
      if (respectDegenerate && (1 <? below + above)%nat)%bool
      then if (maxdim <? Z.of_nat (m + above))%Z
           then ((m - below)%nat, O)
           else ((m + above)%nat, (below + above)%nat)
      else (m, below) in
    Ok (mkTR (map (fun p => p * P0) (firstn m' P2))            (* 454-462 *)
             (err2 * P0) ((Pn - dc) * P0) ((Pn + dc) * P0) below').

(** std::sort(alleig, std::greater<Real>) (svd.cc:228, hermitian.cc:262),
    as an insertion sort. *)
Fixpoint insert_desc (x : Q) (l : list Q) : list Q :=
  match l with
  | [] => [x]
  | y :: t => if Qle_bool y x then x :: y :: t else y :: insert_desc x t
  end.
Fixpoint sort_desc (l : list Q) : list Q :=
  match l with [] => [] | x :: t => insert_desc x (sort_desc t) end.

(** svd.cc:274-281 / hermitian.cc:317-323: keep values above [upper].
    Returns this_m and total_m. *)
Fixpoint keep_upper (d : list Q) (upper : Q) (m total : nat) : nat * nat :=
  match d with
  | [] => (O, total)
  | x :: t => if ((total <? m)%nat && Qltb upper x)%bool
              then let (k, tot) := keep_upper t upper m (S total) in (S k, tot)
              else (O, total)
  end.

(** svd.cc:284-293 / hermitian.cc:326-334: keep degenerate values above
    [lower].  Returns the number kept, total_m and ndegen. *)
Fixpoint keep_degen (d : list Q) (lower : Q) (m total ndegen : nat) : nat * nat * nat :=
  match d with
  | [] => (O, total, ndegen)
  | x :: t => match ndegen with
              | O => (O, total, O)
              | S nd => if ((total <? m)%nat && Qltb lower x)%bool
                        then let '(k, tot, nd') := keep_degen t lower m (S total) nd in
                             (S k, tot, nd')
                        else (O, total, ndegen)
              end
  end.

(** svd.cc:265-301 / hermitian.cc:310-351: the block loop; the result is
    this_m for every block. *)
Fixpoint select_blocks (blocks : list (list Q)) (lower upper : Q)
  (m total ndegen : nat) : list nat :=
  match blocks with
  | [] => []
  | d :: bs =>
      let (k1, tot1) := keep_upper d upper m total in
      let '(k2, tot2, nd2) := keep_degen (skipn k1 d) lower m tot1 ndegen in
      (k1 + k2)%nat :: select_blocks bs lower upper m tot2 nd2
  end.

(** svd.cc:224-301 with Truncate: the weights of each block (squared singular
    values there, eigenvalues in hermitian.cc) are pooled, sorted, truncated,
    and the kept number of values of each block is chosen.  The result pairs
    the truncation's output with this_m for every block. *)
Definition block_truncate (blocks : list (list Q)) (maxdim mindim : Z) (cutoff : Q)
  (absoluteCutoff doRelCutoff respectDegenerate : bool)
  : outcome (tr_result * list nat) :=
  let! r := truncate (sort_desc (concat blocks)) maxdim mindim cutoff
                     absoluteCutoff doRelCutoff respectDegenerate in
  Ok (r, select_blocks blocks (tr_docut_lower r) (tr_docut_upper r)
                       (length (tr_kept r)) 0 (tr_ndegen_below r)).
