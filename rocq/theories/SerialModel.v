(** Model of binary writing and reading: itensor/util/readwrite.h and the write/read members of
    SmallString, QNum, QN, TagSet, Index, IndexSet, Args, the storage types, ITensor, MPS, MPO,
    SiteSet and Sweeps.

    A stream is its remaining bytes, or failed.  A Real is its eight bytes.  Integers are written
    little-endian (int and enums 4 bytes; long, size_t and ids 8).  Every read function takes the
    object read into, because some of them keep part of it.  Simplifications: memory is unlimited;
    a variable that is read uninitialised after a failed read is taken to be 0; a std::vector of
    plain data is read by one s.read of all its bytes, here element by element, which leaves the
    same bytes also when the stream ends early; USESCALE is off (itensor.h:440-442), so the scale
    written is always one and the one read is dropped; Global::read32BitIDs is off. *)
From Coq Require Import List ZArith Bool Lia Arith.
From Coq Require Import Init.Byte Strings.Byte.
From Verif Require Import Util SmallStringModel TagSetModel QnModel IndexModel.
Import ListNotations.
Open Scope outcome_scope.

Definition bytes := list byte.
(** None: failbit is set. *)
Definition stream := option bytes.
Definition reader (T : Type) := T -> stream -> outcome (T * stream).

(** std::istream::read into the n bytes of old: what is there is stored, and failbit set if it is not
    enough; nothing happens on a failed stream. *)
Definition sread (n : nat) (old : bytes) (s : stream) : bytes * stream :=
  match s with
  | None => (old, None)
  | Some b => if (n <=? length b)%nat then (firstn n b, Some (skipn n b))
              else (b ++ skipn (length b) old, None)
  end.

(** The bytes of an integer of n bytes. *)
Definition byte_of (z : Z) : byte := match Byte.of_N (Z.to_N (z mod 256)) with Some b => b | None => x00 end.
Fixpoint le (n : nat) (z : Z) : bytes := match n with 0 => [] | S n' => byte_of z :: le n' (z / 256) end.
Fixpoint unle (b : bytes) : Z := match b with [] => 0%Z | x :: b' => (Z.of_N (Byte.to_N x) + 256 * unle b')%Z end.
Definition signed (n : nat) (u : Z) : Z := if (u <? 2 ^ (8 * Z.of_nat n - 1))%Z then u else (u - 2 ^ (8 * Z.of_nat n))%Z.

(** read and write of plain data (readwrite.h:69-76, 127-134). *)
Definition read_signed (n : nat) : reader Z := fun old s =>
  let (b, s') := sread n (le n old) s in Ok (signed n (unle b), s').
Definition read_unsigned (n : nat) : reader Z := fun old s =>
  let (b, s') := sread n (le n old) s in Ok (unle b, s').
Definition write_int (z : Z) : bytes := le 4 z.
Definition read_int : reader Z := read_signed 4.
Definition write_long (z : Z) : bytes := le 8 z.
Definition read_long : reader Z := read_signed 8.
Definition write_size (z : Z) : bytes := le 8 z.
Definition read_size : reader Z := read_unsigned 8.
Definition real := bytes.
Definition write_real (r : real) : bytes := r.
Definition read_real : reader real := fun old s => Ok (sread 8 old s).

(** Cplx (readwrite.h:153-169). *)
Definition cplx := (real * real)%type.
Definition write_cplx (z : cplx) : bytes := write_real (fst z) ++ write_real (snd z).
Definition read_cplx : reader cplx := fun z s =>
  let! (r, s1) := read_real (fst z) s in let! (i, s2) := read_real (snd z) s1 in Ok ((r, i), s2).

(** resize of a std::string, std::vector or InfArray. *)
Definition resize {A : Type} (d : A) (n : nat) (l : list A) : list A := firstn n l ++ repeat d (n - length l).

(** std::string (readwrite.h:136-151). *)
Definition write_string (x : bytes) : bytes := write_size (Z.of_nat (length x)) ++ x.
Definition read_string : reader bytes := fun old s =>
  let! (n, s1) := read_size (Z.of_nat (length old)) s in
  let n := Z.to_nat n in
  Ok (sread n (resize x00 n old) s1).

(** for(auto& el : v) itensor::read(s,el) *)
Fixpoint read_each {T : Type} (rd : reader T) (l : list T) (s : stream) : outcome (list T * stream) :=
  match l with
  | [] => Ok ([], s)
  | x :: l' => let! (y, s1) := rd x s in let! (r, s2) := read_each rd l' s1 in Ok (y :: r, s2)
  end.
(** std::vector (readwrite.h:190-226); [d] is a new element. *)
Definition write_vec {T : Type} (wr : T -> bytes) (l : list T) : bytes :=
  write_size (Z.of_nat (length l)) ++ flat_map wr l.
Definition read_vec {T : Type} (d : T) (rd : reader T) : reader (list T) := fun old s =>
  let! (n, s1) := read_size (Z.of_nat (length old)) s in
  read_each rd (resize d (Z.to_nat n) old) s1.
(** InfArray (readwrite.h:266-315): the size starts from 0.  [old] is what the slots hold, which can
    be more than the elements (infarray.h:150-179 leaves old slots as they are). *)
Definition write_ia {T : Type} (wr : T -> bytes) (l : list T) : bytes := write_vec wr l.
Definition read_ia {T : Type} (d : T) (rd : reader T) : reader (list T) := fun old s =>
  let! (n, s1) := read_size 0%Z s in
  read_each rd (resize d (Z.to_nat n) old) s1.

Definition real0 : real := repeat x00 8.
Definition cplx0 : cplx := (real0, real0).

(** SmallString (smallstring.h:172-184): seven characters. *)
Definition write_ss (t : SmallString) : bytes := ss_bytes t.
Definition read_ss : reader SmallString := fun t s =>
  let (b, s') := sread 7 (ss_bytes t) s in Ok (ss_of_bytes b, s').

(** QNum (qn.cc:87-105); QNum(n,v,m) calls set, whose 32-bit arithmetic may overflow. *)
Definition write_qnum (q : QNum) : bytes := write_ss (qn_name q) ++ write_int (qn_val q) ++ write_int (qn_mod q).
Definition read_qnum : reader QNum := fun _ s =>
  let! (n, s1) := read_ss ss_empty s in
  let! (v, s2) := read_int 0%Z s1 in
  let! (m, s3) := read_int 0%Z s2 in
  match qset32 m v with Some v' => Ok (mkQNum n v' m, s3) | None => UB end.
(** QN (qn.cc:498-508). *)
Definition write_qn (q : QN) : bytes := flat_map write_qnum q.
Definition read_qn : reader QN := fun q s => read_each read_qnum q s.

(** TagSet (tagset.cc:264-285): [k] tags still to come, [tag] the variable they are read into. *)
Definition write_tags (ts : TagSet) : bytes := flat_map write_ss (ts_tags ts) ++ write_int (ts_plev ts).
Fixpoint read_tags_loop (k : nat) (tag : Tag) (ts : TagSet) (s : stream) : outcome (TagSet * stream) :=
  match k with
  | 0 => Ok (ts, s)
  | S k' => let! (tag', s1) := read_ss tag s in
            let! ts' := addTag ts tag' in
            read_tags_loop k' tag' ts' s1
  end.
Definition read_tags : reader TagSet := fun ts s =>
  let! (ts', s1) := read_tags_loop MAX_TAGS ss_empty ts s in
  let! (p, s2) := read_int 0%Z s1 in
  Ok (ts_setPrime ts' p, s2).

(** QNInt and IQIndexDat (index.cc:561-587). *)
Definition write_qnint (q : QN * Z) : bytes := write_qn (fst q) ++ write_long (snd q).
Definition read_qnint : reader (QN * Z) := fun q s =>
  let! (a, s1) := read_qn (fst q) s in let! (b, s2) := read_long (snd q) s1 in Ok ((a, b), s2).
Definition write_dat (l : list (QN * Z)) : bytes := write_vec write_qnint l.
Definition read_dat (s : stream) : outcome (list (QN * Z) * stream) := read_vec (qn0, 0%Z) read_qnint [] s.

(** The enum Arrow (arrow.h:53): its int; other values are not modelled. *)
Definition write_arrow (d : Arrow) : bytes := write_int (arrow_int d).
Definition read_arrow : reader Arrow := fun d s =>
  let! (z, s1) := read_int (arrow_int d) s in
  if (z =? -1)%Z then Ok (ArrIn, s1) else if (z =? 1)%Z then Ok (ArrOut, s1)
  else if (z =? 0)%Z then Ok (ArrNeither, s1) else UB.

(** Index::write, Index::read (index.cc:710-745). *)
Definition write_index (J : index) : outcome bytes :=
  if negb (ix_bool J) then Err
  else Ok (write_tags (ix_tags J) ++ le 8 (Z.of_N (ix_id J)) ++ write_int (ix_dim J) ++ write_arrow (ix_dir J) ++ write_dat (ix_qns J)).
Definition read_index : reader index := fun J s =>
  let! (ts, s1) := read_tags (ix_tags J) s in
  let! (id, s2) := read_unsigned 8 (Z.of_N (ix_id J)) s1 in
  let! (m, s3) := read_int (ix_dim J) s2 in
  let! (d, s4) := read_arrow (ix_dir J) s3 in
  let! (q, s5) := read_dat s4 in
  Ok (Ix (Z.to_N id) m d (match q with [] => ix_qns J | _ => q end) ts, s5).

(** IndStr<Index> (range.h:54-74), write and read of IndexSet (indexset.cc:367-381). *)
Definition indstr := (index * Z)%type.
Definition write_indstr (x : indstr) : outcome bytes := let! b := write_index (fst x) in Ok (b ++ write_size (snd x)).
Definition read_indstr : reader indstr := fun x s =>
  let! (J, s1) := read_index (fst x) s in let! (t, s2) := read_size (snd x) s1 in Ok ((J, t), s2).
Fixpoint write_all {T : Type} (wr : T -> outcome bytes) (l : list T) : outcome bytes :=
  match l with [] => Ok [] | x :: l' => let! a := wr x in let! b := write_all wr l' in Ok (a ++ b) end.
Definition write_inds (is : list indstr) : outcome bytes :=
  let! b := write_all write_indstr is in Ok (write_size (Z.of_nat (length is)) ++ b).
Definition read_inds : reader (list indstr) := read_ia (ix_default, 0%Z) read_indstr.

(** Args::Val and Args (args.cc:140-160, 456-466); the enum Type (args.h:228). *)
Inductive vtype := VBoolean | VNumeric | VString | VNone.
Definition vtype_int (t : vtype) : Z := match t with VBoolean => 0 | VNumeric => 1 | VString => 2 | VNone => 3 end.
Definition read_vtype : reader vtype := fun t s =>
  let! (z, s1) := read_int (vtype_int t) s in
  if (z =? 0)%Z then Ok (VBoolean, s1) else if (z =? 1)%Z then Ok (VNumeric, s1)
  else if (z =? 2)%Z then Ok (VString, s1) else if (z =? 3)%Z then Ok (VNone, s1) else UB.
Record wval := Wv { wv_name : bytes; wv_type : vtype; wv_s : bytes; wv_r : real }.
Definition write_val (v : wval) : bytes :=
  write_string (wv_name v) ++ write_int (vtype_int (wv_type v)) ++
  match wv_type v with VString => write_string (wv_s v) | _ => write_real (wv_r v) end.
Definition read_val : reader wval := fun v s =>
  let! (n, s1) := read_string (wv_name v) s in
  let! (t, s2) := read_vtype (wv_type v) s1 in
  match t with
  | VString => let! (x, s3) := read_string (wv_s v) s2 in Ok (Wv n t x (wv_r v), s3)
  | _ => let! (r, s3) := read_real (wv_r v) s2 in Ok (Wv n t (wv_s v) r, s3)
  end.
(** Val() (args.cc:49-55); its Real is a NaN. *)
Definition nan : real := repeat x00 6 ++ [xf8; x7f].
Definition val0 : wval := Wv [x4e; x75; x6c; x6c] VNone [] nan.
Definition write_args (a : list wval) : bytes := write_ia write_val a.
Definition read_args : reader (list wval) := read_ia val0 read_val.

(** Storage types: Dense (dense.h:150-162), Diag (diag.h:139-155), QDense (qdense.h:234-248), QDiag
    (qdiag.h:123-139), Combiner (combiner.h:36-40), QCombiner (qcombiner.h:26-48, qcombiner.cc:30-48;
    Range: range.h:284-299), Scalar (scalar.h:81-93). *)
Definition write_long_ia (l : list Z) : bytes := write_ia write_long l.
Definition read_long_ia : reader (list Z) := read_ia 0%Z read_long.
Definition blof := (list Z * Z)%type.
(** BlOf (readwrite.h:318-330). *)
Definition write_blof (x : blof) : bytes := write_long_ia (fst x) ++ write_long (snd x).
Definition read_blof : reader blof := fun x s =>
  let! (b, s1) := read_long_ia (fst x) s in let! (o, s2) := read_long (snd x) s1 in Ok ((b, o), s2).
Definition write_pair (x : Z * Z) : bytes := write_size (fst x) ++ write_size (snd x).
Definition read_pair : reader (Z * Z) := fun x s =>
  let! (a, s1) := read_size (fst x) s in let! (b, s2) := read_size (snd x) s1 in Ok ((a, b), s2).
Definition write_triple (x : Z * Z * Z) : bytes := write_size (fst (fst x)) ++ write_size (snd (fst x)) ++ write_size (snd x).
Definition read_triple : reader (Z * Z * Z) := fun x s =>
  let! (a, s1) := read_size (fst (fst x)) s in let! (b, s2) := read_size (snd (fst x)) s1 in
  let! (c, s3) := read_size (snd x) s2 in Ok ((a, b, c), s3).

Inductive store :=
| Null
| DenseR (l : list real) | DenseC (l : list cplx)
| Comb
| DiagR (v : real) (n : Z) (l : list real) | DiagC (v : cplx) (n : Z) (l : list cplx)
| QDenseR (o : list blof) (l : list real) | QDenseC (o : list blof) (l : list cplx)
| QComb (r : list (Z * Z)) (l : list (Z * Z * Z))
| QDiagR (v : real) (n : Z) (l : list real) | QDiagC (v : cplx) (n : Z) (l : list cplx)
| ScalR (v : real) | ScalC (v : cplx).

(** enum StorageType::Type (task_types.h:456-471). *)
Definition type_code (x : store) : Z :=
  match x with
  | Null => 0 | DenseR _ => 1 | DenseC _ => 2 | Comb => 3 | DiagR _ _ _ => 4 | DiagC _ _ _ => 5
  | QDenseR _ _ => 6 | QDenseC _ _ => 7 | QComb _ _ => 8 | QDiagR _ _ _ => 9 | QDiagC _ _ _ => 10
  | ScalR _ => 11 | ScalC _ => 12
  end.
Definition write_store (x : store) : bytes :=
  match x with
  | Null => [] | Comb => []
  | DenseR l => write_vec write_real l
  | DenseC l => write_vec write_cplx l
  | DiagR v n l | QDiagR v n l => write_real v ++ write_size n ++ write_vec write_real l
  | DiagC v n l | QDiagC v n l => write_cplx v ++ write_size n ++ write_vec write_cplx l
  | QDenseR o l => write_vec write_blof o ++ write_vec write_real l
  | QDenseC o l => write_vec write_blof o ++ write_vec write_cplx l
  | QComb r l => write_ia write_pair r ++ write_vec write_triple l
  | ScalR v => write_real v
  | ScalC v => write_cplx v
  end.
(** readType<T>(s) (itensor.cc): a new object of the type is read. *)
Definition read_reals := read_vec real0 read_real [].
Definition read_cplxs := read_vec cplx0 read_cplx [].
Definition read_offs := read_vec ([], 0%Z) read_blof [].
Definition read_diag {T : Type} (z : T) (rd : reader T) (k : T -> Z -> list T -> store) (s : stream) : outcome (store * stream) :=
  let! (v, s1) := rd z s in
  let! (n, s2) := read_size 0%Z s1 in
  let! (l, s3) := read_vec z rd [] s2 in Ok (k v n l, s3).
Definition read_store (code : Z) (old : store) (s : stream) : outcome (store * stream) :=
  match code with
  | 0 => Ok (old, s)
  | 1 => let! (l, s1) := read_reals s in Ok (DenseR l, s1)
  | 2 => let! (l, s1) := read_cplxs s in Ok (DenseC l, s1)
  | 3 => Ok (Comb, s)
  | 4 => read_diag real0 read_real DiagR s
  | 5 => read_diag cplx0 read_cplx DiagC s
  | 6 => let! (o, s1) := read_offs s in let! (l, s2) := read_reals s1 in Ok (QDenseR o l, s2)
  | 7 => let! (o, s1) := read_offs s in let! (l, s2) := read_cplxs s1 in Ok (QDenseC o l, s2)
  | 8 => let! (r, s1) := read_ia (0, 0)%Z read_pair [] s in
         let! (l, s2) := read_vec (0, 0, 0)%Z read_triple [] s1 in Ok (QComb r l, s2)
  | 9 => read_diag real0 read_real QDiagR s
  | 10 => read_diag cplx0 read_cplx QDiagC s
  | 11 => let! (v, s1) := read_real real0 s in Ok (ScalR v, s1)
  | 12 => let! (v, s1) := read_cplx cplx0 s in Ok (ScalC v, s1)
  | _ => Err
  end%Z.

(** LogNum (real.h:149-160): logarithm and sign; the one written is LogNum(1.). *)
Definition write_scale : bytes := write_real real0 ++ write_int 1.
Definition read_scale (s : stream) : outcome stream :=
  let! (_, s1) := read_real real0 s in let! (_, s2) := read_int 1%Z s1 in Ok s2.

(** ITensor::write, ITensor::read (itensor.cc:768-811). *)
Record itensor := IT { it_inds : list indstr; it_store : store }.
Definition it_default : itensor := IT [] Null.
Definition write_it (T : itensor) : outcome bytes :=
  let! b := write_inds (it_inds T) in
  Ok (b ++ write_scale ++ write_int (type_code (it_store T)) ++ write_store (it_store T)).
Definition read_it : reader itensor := fun T s =>
  let! (is, s1) := read_inds (it_inds T) s in
  let! s2 := read_scale s1 in
  let! (code, s3) := read_int 0%Z s2 in
  let! (x, s4) := read_store code (it_store T) s3 in
  Ok (IT is x, s4).

(** MPS::write, MPS::read (mps.cc:352-378), not in disk mode; atb_ is not written or read. *)
Record mps := Mps { m_n : Z; m_a : list itensor; m_l : Z; m_r : Z }.
Definition write_mps (M : mps) : outcome bytes :=
  let! b := write_all write_it (m_a M) in
  Ok (write_int (m_n M) ++ b ++ write_int (m_l M) ++ write_int (m_r M)).
Definition read_mps : reader mps := fun M s =>
  let! (n, s1) := read_int (m_n M) s in
  let! (a, s2) := read_each read_it (resize it_default (Z.to_nat (n + 2)) (m_a M)) s1 in
  let! (l, s3) := read_int (m_l M) s2 in
  let! (r, s4) := read_int (m_r M) s3 in
  Ok (Mps n a l r, s4).
(** MPS(N) (mps.cc:86-97); leftLim 0, rightLim N+1, A_ of N+2 tensors. *)
Definition mps_new (n : Z) : mps := Mps n (repeat it_default (Z.to_nat (n + 2))) 0 (n + 1).

(** MPO (mpo.h:34, 56-57): MPS::read and MPS::write; the member logrefNorm_ is not among what they
    treat. *)
Record mpo := Mpo { o_mps : mps; o_logref : real }.
Definition write_mpo (H : mpo) : outcome bytes := write_mps (o_mps H).
Definition read_mpo : reader mpo := fun H s => let! (M, s1) := read_mps (o_mps H) s in Ok (Mpo M (o_logref H), s1).

(** SiteSet::write, BasicSiteSet::read (siteset.h:437-466, 505-509): the indices of the sites. *)
Definition write_sites (l : list index) : outcome bytes :=
  let! b := write_all write_index l in Ok (write_int (Z.of_nat (length l)) ++ b).
Definition read_sites : reader (list index) := fun old s =>
  let! (n, s1) := read_int 0%Z s in
  if (0 <? n)%Z then read_each read_index (repeat ix_default (Z.to_nat n)) s1 else Ok (old, s1).

(** Sweeps (sweeps.h:454-474): maxdim, mindim, cutoff, niter, noise, nsweep. *)
Record sweeps := Sw { sw_max : list Z; sw_min : list Z; sw_cut : list real; sw_iter : list Z; sw_noise : list real; sw_n : Z }.
Definition write_sweeps (w : sweeps) : bytes :=
  write_vec write_int (sw_max w) ++ write_vec write_int (sw_min w) ++ write_vec write_real (sw_cut w) ++
  write_vec write_int (sw_iter w) ++ write_vec write_real (sw_noise w) ++ write_int (sw_n w).
Definition read_sweeps : reader sweeps := fun w s =>
  let! (a, s1) := read_vec 0%Z read_int (sw_max w) s in
  let! (b, s2) := read_vec 0%Z read_int (sw_min w) s1 in
  let! (c, s3) := read_vec real0 read_real (sw_cut w) s2 in
  let! (d, s4) := read_vec 0%Z read_int (sw_iter w) s3 in
  let! (e, s5) := read_vec real0 read_real (sw_noise w) s4 in
  let! (n, s6) := read_int (sw_n w) s5 in
  Ok (Sw a b c d e n, s6).

(** readFromFile (readwrite.h:337-358): the stream's state after reading is not looked at. *)
Definition readFromFile {T : Type} (rd : reader T) (t : T) (f : bytes) : outcome T := let! (x, _) := rd t (Some f) in Ok x.
