(** What a user means by the state of an MPS, by left and right orthogonal
    tensors, and by an access history.  Independent of the paging and of the
    orthogonality limits. *)
From Coq Require Import ZArith List Bool Arith.
From Verif Require Import Util BigSum MpsModel MpsTensor.
Import ListNotations.

Section MpsSpec.
Context {R : Type} (r0 r1 : R) (radd rmul : R -> R -> R) (conj : R -> R).
Notation tensor := (@tensor R).
Notation matrix := (@matrix R).
Notation bsum := (bsum r0 radd).
Notation delta := (delta r0 r1).

(** Product of the matrices te t _ s_j _ along a chain, from link value a to b. *)
Fixpoint chain (ts : list tensor) (c : list nat) (a b : nat) : R :=
  match ts, c with
  | t :: ts', s :: c' => bsum (tr t) (fun e => rmul (te t a s e) (chain ts' c' e b))
  | _, _ => delta a b
  end.
(** Amplitude of the configuration c. *)
Definition amplitude (ts : list tensor) (c : list nat) : R := chain ts c 0 0.

(** Neighbouring links have equal dimension. *)
Fixpoint linked (a : nat) (ts : list tensor) (b : nat) : Prop :=
  match ts with
  | [] => a = b
  | t :: ts' => tl t = a /\ linked (tr t) ts' b
  end.
(** A proper chain: links match, the two ends have dimension 1. *)
Definition proper (ts : list tensor) : Prop := linked 1 ts 1.
Definition sites (ts : list tensor) : list nat := map (@tp R) ts.

(** Contracting the tensor with its conjugate over left link and site gives the
    identity on the right link; and the mirror image. *)
Definition left_orth (t : tensor) : Prop :=
  forall c c', c < tr t -> c' < tr t ->
  bsum (tl t) (fun a => bsum (tp t) (fun s => rmul (conj (te t a s c)) (te t a s c'))) = delta c c'.
Definition right_orth (t : tensor) : Prop :=
  forall c c', c < tl t -> c' < tl t ->
  bsum (tr t) (fun b => bsum (tp t) (fun s => rmul (conj (te t c s b)) (te t c' s b))) = delta c c'.

(** What the singular value decomposition promises (when it returns): same left
    link and site, the product restores the tensor, and the factor is orthogonal. *)
Definition svdl_ok (svdl : tensor -> outcome (tensor * matrix)) : Prop :=
  forall t q M, svdl t = Ok (q, M) ->
    tl q = tl t /\ tp q = tp t /\ tj q = tj t /\ left_orth q /\
    forall a s b, a < tl t -> s < tp t -> b < tr t ->
      te t a s b = bsum (tr q) (fun c => rmul (te q a s c) (M c b)).
Definition svdr_ok (svdr : tensor -> outcome (tensor * matrix)) : Prop :=
  forall t q M, svdr t = Ok (q, M) ->
    tr q = tr t /\ tp q = tp t /\ tj q = tj t /\ right_orth q /\
    forall a s b, a < tl t -> s < tp t -> b < tr t ->
      te t a s b = bsum (tl q) (fun c => rmul (M a c) (te q c s b)).

(** The two-site factorisation of svdBond: one factor orthogonal; exact when
    nothing is truncated. *)
Definition splitl_ok (split : @wave R -> outcome (tensor * tensor)) : Prop :=
  forall w x y, split w = Ok (x, y) -> left_orth x /\ tj x = true /\ tj y = wj w.
Definition splitr_ok (split : @wave R -> outcome (tensor * tensor)) : Prop :=
  forall w x y, split w = Ok (x, y) -> right_orth y /\ tj x = true /\ tj y = wj w.
Definition split_exact (split : @wave R -> outcome (tensor * tensor)) : Prop :=
  forall w x y, split w = Ok (x, y) ->
    tl x = wl w /\ tp x = wp1 w /\ tp y = wp2 w /\ tr y = wr w /\ tr x = tl y /\
    forall a s s' b, a < wl w -> s < wp1 w -> s' < wp2 w -> b < wr w ->
      bsum (tr x) (fun c => rmul (te x a s c) (te y c s' b)) = we w a s s' b.

(** The squared norm of the state, summed over all configurations, and of a tensor. *)
Definition norm2 (ts : list tensor) : R :=
  csum r0 radd (sites ts) (fun c => rmul (conj (amplitude ts c)) (amplitude ts c)).
Definition tnorm2 (t : tensor) : R :=
  bsum (tl t) (fun a => bsum (tp t) (fun s => bsum (tr t) (fun b =>
    rmul (conj (te t a s b)) (te t a s b)))).
End MpsSpec.

(** The tensors 1..N held in memory by an MPS, when all are present. *)
Section Held.
Context {T : Type}.
Definition holds (s : mps T) (ts : list T) : Prop :=
  mN s = Z.of_nat (length ts) /\
  forall k, k < length ts -> mA s (1 + Z.of_nat k)%Z = nth_error ts k.
End Held.

(** Access histories of one MPS: read, read two neighbours in one expression, assign, change in place, rescale, move the
    centre (either way), factor a two-site tensor, switch on disk mode. *)
Inductive op (T W : Type) :=
| Get (i : Z) | Get2 (i j : Z) | Put (i : Z) (t : T) | Change (i : Z) (f : T -> T) | Scale (f : T -> T)
| Pos (i : Z) | PosSvd (i : Z) | Svd (b : Z) (w : W) (fromleft : bool) | Page (all : bool).
Arguments Get {T W} i. Arguments Get2 {T W} i j. Arguments Put {T W} i t. Arguments Change {T W} i f. Arguments Scale {T W} f.
Arguments Pos {T W} i. Arguments PosSvd {T W} i. Arguments Svd {T W} b w fromleft. Arguments Page {T W} all.

(** Positions are those of the n tensors, counted from either end. *)
Definition at_site (n i : Z) : Prop := (1 <= i <= n \/ - n <= i <= -1)%Z.
Definition valid_op {T W} (n : Z) (o : op T W) : Prop :=
  match o with
  | Get i | Put i _ | Change i _ => at_site n i
  | Get2 i j => (1 <= i <= n /\ 1 <= j <= n /\ Z.abs (i - j) <= 1)%Z
  | Scale _ | Page _ => True
  | Pos i | PosSvd i => (1 <= i <= n)%Z
  | Svd b _ _ => (1 <= b < n)%Z
  end.

(** Claims about the tensors made by the orthogonality limits. *)
Section Claims.
Context {R : Type} (r0 r1 : R) (radd rmul : R -> R -> R) (conj : R -> R).
Notation tensor := (@tensor R).
Local Open Scope Z_scope.
(** All tensors present; each but the last shares an index with its right neighbour. *)
Definition filled (s : mps tensor) : Prop :=
  forall j, 1 <= j <= mN s -> exists t, mA s j = Some t /\ (j < mN s -> tj t = true).
(** Tensors up to the left limit are left orthogonal, from the right limit on
    right orthogonal. *)
Definition claims (s : mps tensor) : Prop :=
  (forall j t, 1 <= j <= ml s -> mA s j = Some t -> left_orth r0 r1 radd rmul conj t) /\
  (forall j t, mr s <= j <= mN s -> mA s j = Some t -> right_orth r0 r1 radd rmul conj t).
Definition good (s : mps tensor) : Prop :=
  mdo s = false /\ 1 <= mN s /\ 0 <= ml s /\ ml s + 2 <= mr s <= mN s + 1 /\ filled s /\ claims s.
(** The state as the user sees it: same amplitudes, still a proper chain. *)
Definition same_state (s s' : mps tensor) : Prop :=
  forall ts, holds s ts -> proper ts ->
  exists ts', holds s' ts' /\ proper ts' /\ sites ts' = sites ts /\
    forall c, Forall2 lt c (sites ts) -> amplitude r0 r1 radd rmul ts' c = amplitude r0 r1 radd rmul ts c.
(** Operations that keep neighbours connected. *)
Definition joined_op (n : Z) (o : op tensor (@wave R)) : Prop :=
  match o with
  | Put i t => tj t = true \/ i = n \/ i = -1
  | Change _ f | Scale f => forall t, tj (f t) = tj t
  | Svd b w _ => b + 1 < n -> wj w = true
  | _ => True
  end.
End Claims.

Section Step.
Context {T W : Type}.
Variable orthL orthR : T -> T -> outcome (T * T).
Variable splitL splitR : W -> outcome (T * T).
Variable pair : T -> T -> W.
(** What the caller sees: the tensor of a read, and the limits. *)
Definition obs : Type := option (option T) * Z * Z.
Definition see (r : outcome (disk T * mps T)) : outcome (disk T * mps T * list obs) :=
  obind r (fun '(d, s) => Ok (d, s, [(None, ml s, mr s)])).
Definition step (d : disk T) (s : mps T) (fresh : nat) (o : op T W)
  : outcome (disk T * mps T * list obs) :=
  match o with
  | Get i => obind (get d s i) (fun '(d1, s1, x) => Ok (d1, s1, [(Some x, ml s1, mr s1)]))
  | Get2 i j => obind (get2 d s i j) (fun '(d1, s1, (x, y)) =>
      Ok (d1, s1, [(Some x, ml s1, mr s1); (Some y, ml s1, mr s1)]))
  | Put i t => see (modify d s i (fun _ => Some t))
  | Change i f => see (modify d s i (option_map f))
  | Scale f => see (scale d s (option_map f))
  | Pos i => see (position orthL orthR d s i)
  | PosSvd i => see (position_svd splitL splitR pair d s i)
  | Svd b w fl => see (svdBond splitL splitR d s b w fl)
  | Page all => obind (doWrite d s true all fresh) (fun '(d1, s1) => Ok (d1, s1, []))
  end.
(** A history without disk mode. *)
Fixpoint run_mem (d : disk T) (s : mps T) (os : list (op T W)) : outcome (mps T) :=
  match os with
  | [] => Ok s
  | o :: os' => obind (step d s 0 o) (fun '(d1, s1, _) => run_mem d1 s1 os')
  end.
Definition is_page (o : op T W) : bool := match o with Page _ => true | _ => false end.
End Step.

(** Several MPS in one program, sharing the file system.  [Copy k k'] copies or
    assigns object k to object k'. *)
Inductive wop (T W : Type) := On (k : nat) (o : op T W) | Copy (k k' : nat).
Arguments On {T W} k o. Arguments Copy {T W} k k'.
Record world (T : Type) := mkWorld { wdisk : disk T; wobj : nat -> mps T; wfresh : nat }.
Arguments mkWorld {T} wdisk wobj wfresh. Arguments wdisk {T} w. Arguments wobj {T} w k. Arguments wfresh {T} w.

Section World.
Context {T W : Type}.
Variable orthL orthR : T -> T -> outcome (T * T).
Variable splitL splitR : W -> outcome (T * T).
Variable pair : T -> T -> W.
Definition wset (w : world T) (d : disk T) (k : nat) (s : mps T) : world T :=
  mkWorld d (fun k' => if Nat.eqb k' k then s else wobj w k') (S (wfresh w)).
Definition wstep (w : world T) (o : wop T W) : outcome (world T * list (@obs T)) :=
  match o with
  | On k o => obind (step orthL orthR splitL splitR pair (wdisk w) (wobj w k) (wfresh w) o)
                (fun '(d, s, l) => Ok (wset w d k s, l))
  | Copy k k' => let '(d, s) := copy (wdisk w) (wobj w k) (wfresh w) in Ok (wset w d k' s, [])
  end.
Fixpoint wrun (w : world T) (os : list (wop T W)) : outcome (list (@obs T)) :=
  match os with
  | [] => Ok []
  | o :: os' => obind (wstep w o) (fun '(w1, l) => obind (wrun w1 os') (fun l' => Ok (l ++ l')))
  end.
Definition is_wpage (o : wop T W) : bool := match o with On _ o => is_page o | Copy _ _ => false end.
(** The same program with every switch to disk mode deleted. *)
Definition in_memory (os : list (wop T W)) : list (wop T W) := filter (fun o => negb (is_wpage o)) os.
Definition valid_wop (n : Z) (o : wop T W) : Prop := match o with On _ o => valid_op n o | Copy _ _ => True end.
(** Objects at the start of the program: in memory, n sites, limits in range. *)
Definition starts (n : Z) (w : world T) : Prop :=
  forall k, mdo (wobj w k) = false /\ mN (wobj w k) = n /\
    (0 <= ml (wobj w k) /\ ml (wobj w k) + 2 <= mr (wobj w k) <= n + 1)%Z /\
    (0 <= matb (wobj w k) <= n)%Z.
End World.
