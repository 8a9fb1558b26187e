(** Products and elementwise operations of matrix and vector views.
    itensor/tensor/{matrange.h,slicemat.h,gemm.cc,mat.cc,mat_impl.h,vec.cc,vecrange.h,lapack_wrap.cc}.

    Simplifications: exact arithmetic; the memory of the result is another memory than that of the operands (the code
    gives the operands to BLAS or loops over both, so they must not overlap); memory is unbounded, except for the vectors the
    functions allocate themselves; BLAS routines are what their documentation says. *)
From Coq Require Import List Arith Bool.
From Verif Require Import Util BigSum GvSpec.
Import ListNotations.
Local Open Scope outcome_scope.

(** matrange.h:33-58: MatRange(rn,cn); the view of a Matrix of its own *)
Definition fresh (rn cn : nat) : mview := MView rn 1 cn rn 0.
(** matrange.h:117-122, slicemat.h:22-29 *)
Definition transpose (v : mview) : mview := MView (m_cn v) (m_cs v) (m_rn v) (m_rs v) (m_at v).
(** matrange.h:161-171 *)
Definition isTransposed (v : mview) : bool := (m_rs v =? m_cn v) && (m_cs v =? 1).
Definition isNormal (v : mview) : bool := (m_rs v =? 1) && (m_cs v =? m_rn v).
Definition isContiguous (v : mview) : bool := isNormal v || isTransposed v.
(** matrange.h:144-155: operator== on ranges; the place of the first element is not part of the range *)
Definition rangeEq (a b : mview) : bool := (m_rn a =? m_rn b) && (m_rs a =? m_rs b) && (m_cn a =? m_cn b) && (m_cs a =? m_cs b).
(** matrange.h:136-142 *)
Definition mdim (v : mview) : nat := m_rn v * m_cn v.

(** slicemat.h:31-49, dbg: compiled with DEBUG *)
Definition subMatrix (dbg : bool) (v : mview) (rstart rstop cstart cstop : nat) : outcome mview :=
  if dbg && ((m_rn v <? rstop) || (rstop <=? rstart)) then Err
  else if dbg && ((m_cn v <? cstop) || (cstop <=? cstart)) then Err
  else Ok (MView (rstop - rstart) (m_rs v) (cstop - cstart) (m_cs v) (m_at v + (m_rs v * rstart + m_cs v * cstart))).
(** slicemat.h:51-69 *)
Definition rows (dbg : bool) (v : mview) (rstart rstop : nat) : outcome mview := subMatrix dbg v rstart rstop 0 (m_cn v).
Definition columns (dbg : bool) (v : mview) (cstart cstop : nat) : outcome mview := subMatrix dbg v 0 (m_rn v) cstart cstop.
(** slicemat.h:71-79 *)
Definition diagonal (v : mview) : vview := VView (min (m_rn v) (m_cn v)) (m_rs v + m_cs v) (m_at v).
(** slicemat.h:81-105 *)
Definition row (dbg : bool) (v : mview) (j : nat) : outcome vview :=
  if dbg && (m_rn v <? j) then Err else Ok (VView (m_cn v) (m_cs v) (m_at v + j * m_rs v)).
Definition column (dbg : bool) (v : mview) (j : nat) : outcome vview :=
  if dbg && (m_cn v <? j) then Err else Ok (VView (m_rn v) (m_rs v) (m_at v + j * m_cs v)).

Section Model.
Context {T : Type} (t0 t1 : T) (tadd tmul tsub tdiv : T -> T -> T) (topp : T -> T).
(** comparison with 0.0 *)
Context (tzero : T -> bool).
Notation rd := (elt t0).
Notation zadd := (zplus tadd). Notation zsub := (zminus tsub). Notation zmul := (ztimes tadd tmul tsub). Notation zre := (zreal t0).
Notation zsum := (zsum t0 tadd).

Definition put (m : mem T) (p : nat) (x : T) : mem T := fun q => if q =? p then x else m q.
(** Writing one element. *)
Definition wr (k : vkind) (m : mem T) (o : nat) (z : T * T) : mem T :=
  match k with Re => put m o (fst z) | Cx => put (put m (2 * o) (fst z)) (S (2 * o)) (snd z) end.
(** for(i = 0; i < n; ++i) f(i) *)
Fixpoint each {S : Type} (n : nat) (f : nat -> S -> S) (s : S) : S :=
  match n with O => s | Datatypes.S n' => f n' (each n' f s) end.

(** BLAS dgemm (k=Re) and zgemm (k=Cx), column-major: C = alpha op(A) op(B) + beta C, with C not read when beta is zero; the
    pointers a, b, c are element numbers.  Calls with illegal leading dimensions go to XERBLA. *)
Definition blas_gemm (vk : vkind) (ta tb : bool) (m n k : nat) (alpha : T * T) (A : mem T) (a lda : nat) (B : mem T) (b ldb : nat)
    (bz : bool) (beta : T * T) (C : mem T) (c ldc : nat) : outcome (mem T) :=
  if (lda <? max 1 (if ta then k else m)) || (ldb <? max 1 (if tb then n else k)) || (ldc <? max 1 m) then Err
  else Ok (each (m * n) (fun t C =>
    let i := t mod m in let j := t / m in
    let s := zsum k (fun l => zmul (rd vk A (a + (if ta then l + i * lda else i + l * lda))) (rd vk B (b + (if tb then j + l * ldb else l + j * ldb)))) in
    wr vk C (c + (i + j * ldc)) (if bz then zmul alpha s else zadd (zmul alpha s) (zmul beta (rd vk C (c + (i + j * ldc)))))) C).
(** lapack_wrap.cc:114-248: the two gemm_wrapper *)
Definition gemm_wrapper (vk : vkind) (transa transb : bool) (m n k : nat) (alpha : T) (A : mem T) (a : nat) (B : mem T) (b : nat) (beta : T) (C : mem T) (c : nat) : outcome (mem T) :=
  let lda := if transa then k else m in
  let ldb := if transb then n else k in
  blas_gemm vk transa transb m n k (zre alpha) A a lda B b ldb (tzero beta) (zre beta) C c m.

(** gemm.cc:22-52: struct dgemmTask and its three constructors *)
Record dgemmTask : Type := { copyToC : bool; copyFromC : bool; Apart : nat; Bpart : nat; Cpart : nat; talpha : T; tbeta : T }.
Definition task_ab (Ap Bp Cp : nat) (a b : T) : dgemmTask :=
  {| copyToC := false; copyFromC := negb (tzero b); Apart := Ap; Bpart := Bp; Cpart := Cp; talpha := a; tbeta := b |}.
Definition task_a (Ap Bp Cp : nat) (a : T) : dgemmTask :=
  {| copyToC := false; copyFromC := false; Apart := Ap; Bpart := Bp; Cpart := Cp; talpha := a; tbeta := t1 |}.
Definition task_c (Cp : nat) : dgemmTask :=
  {| copyToC := true; copyFromC := false; Apart := 0; Bpart := 0; Cpart := Cp; talpha := t0; tbeta := t0 |}.
(** gemm.cc:54-77: from the memory C, starting at place c, every second place, to n places of the buffer starting at r; and back *)
Definition cplxToRealBuf (C : mem T) (c imagPart : nat) (r n : nat) (buf : mem T) : mem T :=
  each n (fun i buf => put buf (r + i) (C (c + imagPart + 2 * i))) buf.
Definition realBufToCplx (buf : mem T) (r n : nat) (C : mem T) (c imagPart : nat) : mem T :=
  each n (fun i C => put C (c + imagPart + 2 * i) (buf (r + i))) C.

Definition isCplx (k : vkind) : bool := match k with Re => false | Cx => true end.
(** Places per element: the Real pointer of element number o. *)
Definition rptr (k : vkind) (o : nat) : nat := match k with Re => o | Cx => 2 * o end.
(** gemm.cc:79-158: one task; the state is the buffer d and the memory of C.  The real gemm reads A and B from the buffer when
    they are complex and in place when they are real; A and B both real is excluded by a static_assert *)
Definition emu_task (ka kb : vkind) (MA : mem T) (A : mview) (MB : mem T) (B : mview) (C : mview) (t : dgemmTask) (s : mem T * mem T) : outcome (mem T * mem T) :=
  let (d, MC) := s in
  let ab := 0 in
  let bb := ab + (if isCplx ka then mdim A else 0) in
  let cb := bb + (if isCplx kb then mdim B else 0) in
  if copyToC t then Ok (d, realBufToCplx d cb (mdim C) MC (2 * m_at C) (Cpart t))
  else
    let d := if isCplx ka then cplxToRealBuf MA (2 * m_at A) (Apart t) ab (mdim A) d else d in
    let d := if isCplx kb then cplxToRealBuf MB (2 * m_at B) (Bpart t) bb (mdim B) d else d in
    let d := if copyFromC t then cplxToRealBuf MC (2 * m_at C) (Cpart t) cb (mdim C) d else d in
    let! d' := gemm_wrapper Re (isTransposed A) (isTransposed B) (m_rn A) (m_cn B) (m_cn A) (talpha t)
                 (if isCplx ka then d else MA) (if isCplx ka then ab else m_at A)
                 (if isCplx kb then d else MB) (if isCplx kb then bb else m_at B) (tbeta t) d cb in
    Ok (d', MC).
Fixpoint emu_tasks (ka kb : vkind) (MA : mem T) (A : mview) (MB : mem T) (B C : mview) (ts : list dgemmTask) (s : mem T * mem T) : outcome (mem T * mem T) :=
  match ts with [] => Ok s | t :: ts => let! s := emu_task ka kb MA A MB B C t s in emu_tasks ka kb MA A MB B C ts s end.
(** vector_no_init: garbage is what the new buffer happens to hold *)
Definition gemm_emulator (ka kb : vkind) (garbage : mem T) (MA : mem T) (A : mview) (MB : mem T) (B : mview) (MC : mem T) (C : mview) (ts : list dgemmTask) : outcome (mem T) :=
  let! s := emu_tasks ka kb MA A MB B C ts (garbage, MC) in Ok (snd s).
(** gemm.cc:160-246: the four gemm_impl; usez: compiled with ITENSOR_USE_ZGEMM *)
Definition gemm_impl (usez : bool) (garbage : mem T) (ka kb : vkind) (MA : mem T) (A : mview) (MB : mem T) (B : mview) (MC : mem T) (C : mview) (alpha beta : T) : outcome (mem T) :=
  match ka, kb with
  | Cx, Cx =>
      if usez then gemm_wrapper Cx (isTransposed A) (isTransposed B) (m_rn A) (m_cn B) (m_cn A) alpha MA (m_at A) MB (m_at B) beta MC (m_at C)
      else gemm_emulator Cx Cx garbage MA A MB B MC C
             [task_ab 0 0 0 alpha beta; task_a 1 1 0 (topp alpha); task_c 0; task_ab 1 0 1 alpha beta; task_a 0 1 1 alpha; task_c 1]
  | Re, Cx => gemm_emulator Re Cx garbage MA A MB B MC C [task_ab 0 0 0 alpha beta; task_c 0; task_ab 0 1 1 alpha beta; task_c 1]
  | Cx, Re => gemm_emulator Cx Re garbage MA A MB B MC C [task_ab 0 0 0 alpha beta; task_c 0; task_ab 1 0 1 alpha beta; task_c 1]
  | Re, Re => gemm_wrapper Re (isTransposed A) (isTransposed B) (m_rn A) (m_cn B) (m_cn A) alpha MA (m_at A) MB (m_at B) beta MC (m_at C)
  end.
(** gemm.cc:248-287 *)
Definition gemm (dbg usez : bool) (garbage : mem T) (ka kb : vkind) (MA : mem T) (A : mview) (MB : mem T) (B : mview) (MC : mem T) (C : mview) (alpha beta : T) : outcome (mem T) :=
  if dbg && negb (isContiguous A && isContiguous B && isContiguous C) then Err
  else if dbg && negb (m_cn A =? m_rn B) then Err
  else if dbg && (negb (m_rn A =? m_rn C) || negb (m_cn B =? m_cn C)) then Err
  else if isTransposed C then gemm_impl usez garbage kb ka MB (transpose B) MA (transpose A) MC (transpose C) alpha beta
  else gemm_impl usez garbage ka kb MA A MB B MC C alpha beta.
(** mat_impl.h:137-147: mult(A,B) returning a matrix, whose memory is given back; a new Mat holds zeros *)
Definition mult_mat (dbg usez : bool) (garbage : mem T) (ka kb : vkind) (MA : mem T) (A : mview) (MB : mem T) (B : mview) : outcome (mview * mem T) :=
  let C := fresh (m_rn A) (m_cn B) in
  let! MC := gemm dbg usez garbage ka kb MA A MB B (fun _ => t0) C t1 t0 in
  Ok (C, MC).

(** BLAS dgemv and zgemv: y = alpha op(A) x + beta y, column-major with leading dimension lda *)
Definition blas_gemv (vk : vkind) (tr : bool) (m n : nat) (alpha : T * T) (A : mem T) (a lda : nat) (X : mem T) (x incx : nat) (bz : bool) (beta : T * T) (Y : mem T) (y incy : nat) : outcome (mem T) :=
  if (lda <? max 1 m) || (incx =? 0) || (incy =? 0) then Err
  else if (m =? 0) || (n =? 0) then Ok Y
  else
    let lenx := if tr then m else n in let leny := if tr then n else m in
    Ok (each leny (fun i Y =>
      let s := zsum lenx (fun l => zmul (rd vk A (a + (if tr then l + i * lda else i + l * lda))) (rd vk X (x + l * incx))) in
      wr vk Y (y + i * incy) (if bz then zmul alpha s else zadd (zmul alpha s) (zmul beta (rd vk Y (y + i * incy))))) Y).
(** lapack_wrap.cc:249-316 *)
Definition gemv_wrapper (vk : vkind) (trans : bool) (alpha beta : T) (m n : nat) (A : mem T) (a : nat) (X : mem T) (x incx : nat) (Y : mem T) (y incy : nat) : outcome (mem T) :=
  blas_gemv vk trans m n (zre alpha) A a m X x incx (tzero beta) (zre beta) Y y incy.
(** mat.cc:365-389 *)
Definition call_gemv (dbg : bool) (vk : vkind) (MM : mem T) (M : mview) (X : mem T) (x : vview) (Y : mem T) (y : vview) (alpha beta : T) (fromleft : bool) : outcome (mem T) :=
  if dbg && negb (isContiguous M) then Err
  else
    let trans := if isTransposed M then negb fromleft else fromleft in
    let m := if isTransposed M then m_cn M else m_rn M in
    let n := if isTransposed M then m_rn M else m_cn M in
    gemv_wrapper vk trans alpha beta m n MM (m_at M) X (w_at x) (w_s x) Y (w_at y) (w_s y).
(** mat.cc:395-406, 424-437, 441-454: mult, multAdd and multSub into a vector view *)
Definition checked_gemv (dbg : bool) (vk : vkind) (MM : mem T) (M : mview) (X : mem T) (x : vview) (Y : mem T) (y : vview) (alpha beta : T) (fromleft : bool) : outcome (mem T) :=
  if dbg && negb (if fromleft then m_rn M =? w_n x else m_cn M =? w_n x) then Err
  else if dbg && negb (if fromleft then m_cn M =? w_n y else m_rn M =? w_n y) then Err
  else call_gemv dbg vk MM M X x Y y alpha beta fromleft.
Definition mult (dbg : bool) (vk : vkind) (MM : mem T) (M : mview) (X : mem T) (x : vview) (Y : mem T) (y : vview) (fromleft : bool) : outcome (mem T) :=
  checked_gemv dbg vk MM M X x Y y t1 t0 fromleft.
Definition multAdd (dbg : bool) (vk : vkind) (MM : mem T) (M : mview) (X : mem T) (x : vview) (Y : mem T) (y : vview) (fromleft : bool) : outcome (mem T) :=
  checked_gemv dbg vk MM M X x Y y t1 t1 fromleft.
Definition multSub (dbg : bool) (vk : vkind) (MM : mem T) (M : mview) (X : mem T) (x : vview) (Y : mem T) (y : vview) (fromleft : bool) : outcome (mem T) :=
  checked_gemv dbg vk MM M X x Y y (topp t1) t1 fromleft.
(** A new Vec of n zeros, filled by f with leny elements: more than n is outside its storage. *)
Definition new_vec (n leny : nat) (f : mem T -> vview -> outcome (mem T)) : outcome (vview * mem T) :=
  let y := VView n 1 0 in
  if n <? leny then UB else let! Y := f (fun _ => t0) y in Ok (y, Y).
(** mat_impl.h:149-184: operator*(M,v) and operator*(v,M) *)
Definition mat_times_vec (dbg : bool) (vk : vkind) (MM : mem T) (M : mview) (X : mem T) (x : vview) : outcome (vview * mem T) :=
  new_vec (m_rn M) (m_rn M) (fun Y y => mult dbg vk MM M X x Y y false).
Definition vec_times_mat (dbg : bool) (vk : vkind) (X : mem T) (x : vview) (MM : mem T) (M : mview) : outcome (vview * mem T) :=
  new_vec (m_cn M) (m_cn M) (fun Y y => mult dbg vk MM M X x Y y true).
(** mat.cc:409-419: mult(M,x,fromleft) returning a Vec.  The result has the length of x, and the inner call of mult is
    mult(M,x,res) with its default fromleft=false.  With DEBUG the inner call checks the sizes before it writes *)
Definition mult_vec (dbg : bool) (vk : vkind) (MM : mem T) (M : mview) (X : mem T) (x : vview) (fromleft : bool) : outcome (vview * mem T) :=
  if dbg && negb ((m_cn M =? w_n x) && (m_rn M =? w_n x)) then Err
  else new_vec (w_n x) (m_rn M) (fun Y y => mult dbg vk MM M X x Y y false).

(** matrange.h:205-253: MatRangeIter, count and offset; begin, ++ *)
Definition it_begin : nat * nat := (0, 0).
Definition it_next (v : mview) (it : nat * nat) : nat * nat :=
  let count := S (fst it) in
  let off := snd it + m_rs v in
  if count mod m_rn v =? 0 then (count, off - m_rs v * m_rn v + m_cs v) else (count, off).
(** for(auto& el : a) { f(el,*it); ++it; } (mat.cc:38-50); fuel: the elements not yet visited, until count == rn*cn *)
Fixpoint apply_view (fuel : nat) (ka kb : vkind) (a b : mview) (ia ib : nat * nat) (f : T * T -> T * T -> T * T) (MB : mem T) (MA : mem T) : mem T :=
  match fuel with
  | O => MA
  | S fuel =>
      let MA := wr ka MA (m_at a + snd ia) (f (rd ka MA (m_at a + snd ia)) (rd kb MB (m_at b + snd ib))) in
      apply_view fuel ka kb a b (it_next a ia) (it_next b ib) f MB MA
  end.
(** mat.cc:26-36: apply on two pointers, n elements *)
Definition apply_ptr (n : nat) (ka kb : vkind) (a b : nat) (f : T * T -> T * T -> T * T) (MB MA : mem T) : mem T :=
  each n (fun i MA => wr ka MA (a + i) (f (rd ka MA (a + i)) (rd kb MB (b + i)))) MA.
(** BLAS daxpy and dscal with increments 1 *)
Definition daxpy (n : nat) (alpha : T) (X : mem T) (x : nat) (Y : mem T) (y : nat) : mem T :=
  each n (fun i Y => put Y (y + i) (tadd (Y (y + i)) (tmul alpha (X (x + i))))) Y.
Definition dscal (n : nat) (alpha : T) (X : mem T) (x : nat) : mem T := each n (fun i X => put X (x + i) (tmul alpha (X (x + i)))) X.
(** ten.h:849-863: realData, the number of places of the n elements *)
Definition rsize (k : vkind) (n : nat) : nat := match k with Re => n | Cx => 2 * n end.
(** mat.cc:52-95: operator&=, Real or Cplx from Real (ka, kb) *)
Definition assign (dbg : bool) (ka kb : vkind) (a b : mview) (MB MA : mem T) : outcome (mem T) :=
  if dbg && negb ((m_rn b =? m_rn a) && (m_cn b =? m_cn a)) then Err
  else if rangeEq a b && isContiguous b then Ok (apply_ptr (mdim a) ka kb (m_at a) (m_at b) (fun _ y => y) MB MA)
  else Ok (apply_view (mdim a) ka kb a b it_begin it_begin (fun _ y => y) MB MA).
(** mat.cc:174-214 and 216-258: operator+= and operator-= *)
Definition addsub (minus : bool) (dbg : bool) (k : vkind) (a b : mview) (MB MA : mem T) : outcome (mem T) :=
  if dbg && negb ((m_cn a =? m_cn b) && (m_rn a =? m_rn b)) then Err
  else if rangeEq b a && isContiguous b then
    Ok (daxpy (rsize k (mdim a)) (if minus then topp t1 else t1) MB (rptr k (m_at b)) MA (rptr k (m_at a)))
  else Ok (apply_view (mdim a) k k a b it_begin it_begin (if minus then zsub else zadd) MB MA).
(** mat.cc:97-137: operator*= by a real and by a complex number *)
Definition mult_real (k : vkind) (a : mview) (fac : T) (MA : mem T) : mem T :=
  if isContiguous a then dscal (rsize k (mdim a)) fac MA (rptr k (m_at a))
  else apply_view (mdim a) k k a a it_begin it_begin (fun x _ => zmul x (zre fac)) MA MA.
Definition mult_cplx (a : mview) (fac : T * T) (MA : mem T) : mem T :=
  apply_view (mdim a) Cx Cx a a it_begin it_begin (fun x _ => zmul x fac) MA MA.
(** mat.cc:139-170: operator/= by a real number; a complex number divided by a real one is divided part by part *)
Definition div_real (k : vkind) (a : mview) (fac : T) (MA : mem T) : mem T :=
  if isContiguous a then each (rsize k (mdim a)) (fun i M => put M (rptr k (m_at a) + i) (tdiv (M (rptr k (m_at a) + i)) fac)) MA
  else apply_view (mdim a) k k a a it_begin it_begin (fun x _ => (tdiv (fst x) fac, tdiv (snd x) fac)) MA MA.

(** vec.cc: loops over a vector view: VecRangeIter goes from offset 0 in steps of the stride to stride*extent (vecrange.h:184-237).
    A stride of 0 ends at once *)
Definition vec_loop (v : vview) (f : nat -> mem T -> mem T) (m : mem T) : mem T := if w_s v =? 0 then m else each (w_n v) f m.
Definition vapply (ka kb : vkind) (a b : vview) (bs : nat) (f : T * T -> T * T -> T * T) (MB MA : mem T) : mem T :=
  vec_loop a (fun i MA => wr ka MA (w_at a + i * w_s a) (f (rd ka MA (w_at a + i * w_s a)) (rd kb MB (w_at b + i * bs)))) MA.
(** vec.cc:33-72: refAssign; through b.data() (step 1) when b is contiguous, else b's iterator *)
Definition vassign (dbg : bool) (ka kb : vkind) (a b : vview) (MB MA : mem T) : outcome (mem T) :=
  if dbg && negb (w_n b =? w_n a) then Err
  else if w_s b =? 1 then Ok (vapply ka kb a b 1 (fun _ y => y) MB MA)
  else Ok (vapply ka kb a b (w_s b) (fun _ y => y) MB MA).
(** vec.cc:148-197: operator+= and operator-= on real vectors *)
Definition vaddsub (minus : bool) (dbg : bool) (a b : vview) (MB MA : mem T) : outcome (mem T) :=
  let f := if minus then zsub else zadd in
  if dbg && negb (w_n a =? w_n b) then Err
  else if w_s b =? 1 then
    if w_s a =? 1 then Ok (daxpy (w_n a) (if minus then topp t1 else t1) MB (w_at b) MA (w_at a))
    else Ok (vapply Re Re a b 1 f MB MA)
  else Ok (vapply Re Re a b (w_s b) f MB MA).
(** vec.cc:74-112 *)
Definition vmult_real (k : vkind) (a : vview) (fac : T) (MA : mem T) : mem T :=
  if w_s a =? 1 then dscal (rsize k (w_n a)) fac MA (rptr k (w_at a))
  else vapply k k a a (w_s a) (fun x _ => zmul x (zre fac)) MA MA.
(** vec.cc:114-146: operator/= of vectors throws for zero, that of matrices does not *)
Definition vdiv_real (k : vkind) (a : vview) (fac : T) (MA : mem T) : outcome (mem T) :=
  if tzero fac then Err
  else if w_s a =? 1 then Ok (each (rsize k (w_n a)) (fun i M => put M (rptr k (w_at a) + i) (tdiv (M (rptr k (w_at a) + i)) fac)) MA)
  else Ok (vapply k k a a (w_s a) (fun x _ => (tdiv (fst x) fac, tdiv (snd x) fac)) MA MA).
End Model.
