(** Edge tensors of a projected operator, and histories of one LocalMPO. *)
From Coq Require Import ZArith List Bool.
From Verif Require Import Util LocalModel.
Import ListNotations.
Local Open Scope Z_scope.
Local Open Scope outcome_scope.

Section LocalSpec.
Context {E T : Type} (stepL stepR : Z -> option E -> T -> E).

(** The left edge tensor of the first k sites after the boundary at l, built from the current psi
    alone, and the right edge tensor before the boundary at r. *)
Fixpoint envL_n (bl : option E) (l : Z) (psi : Z -> T) (n : nat) : option E :=
  match n with
  | O => bl
  | S n' => let j := l + Z.of_nat n in Some (stepL j (envL_n bl l psi n') (psi j))
  end.
Definition envL bl l psi k := envL_n bl l psi (Z.to_nat (k - l)).
Fixpoint envR_n (br : option E) (r : Z) (psi : Z -> T) (n : nat) : option E :=
  match n with
  | O => br
  | S n' => let j := r - Z.of_nat n in Some (stepR j (envR_n br r psi n') (psi j))
  end.
Definition envR br r psi k := envR_n br r psi (Z.to_nat (r - k)).

(** A program using one LocalMPO and one psi. *)
Inductive lact :=
| Position (b : Z) | Center (v : Z) | Change (j : Z) (t : T) | Shift (j : Z) | Reset | Write.
Definition lstep (s : lmpo E) (psi : Z -> T) (o : lact) : outcome (lmpo E * (Z -> T)) :=
  match o with
  | Position b => let! s' := position stepL stepR psi s b in Ok (s', psi)
  | Center v => let! s' := numCenter s v in Ok (s', psi)
  | Change j t => Ok (s, fun k => if k =? j then t else psi k)
  | Shift j => let! s' := shift stepL stepR s j true (psi j) in Ok (s', psi)
  | Reset => let! s' := reset s in Ok (s', psi)
  | Write => let! s' := doWrite s true in Ok (s', psi)
  end.

Section Valid.
Variables (n : Z) (op : bool) (bl br : option E) (l r : Z).
(** Positions within the boundaries; psi is only changed strictly between leftLim() and
    rightLim(); in write mode, no move whose new left edge is the old right edge (see
    C40_write_jump_refuted), and no tensor stored at positions 0 and N+1. *)
Definition lvalid (s : lmpo E) (o : lact) : Prop :=
  match o with
  | Position b => l <= b - 1 /\ b + lnc s <= r /\ (lwr s = true -> b - 1 <> lR s)
  | Center v => 0 <= v <= 2
  | Change j _ => lL s < j < lR s
  | Shift j => op = true /\ lL s = j - 1 /\ lR s = j + lnc s /\ lR s < r /\ getL s <> None /\ (lwr s = true -> 0 < lnc s)
  | Reset => op = true /\ l = 0 /\ r = n + 1
  | Write => op = true /\ (l = 0 <-> bl = None) /\ (r = n + 1 <-> br = None)
  end.
Inductive lreach : lmpo E -> (Z -> T) -> Prop :=
| lr_start psi : lreach (make n op bl br l r) psi
| lr_step s psi o s' psi' : lreach s psi -> lvalid s o -> lstep s psi o = Ok (s', psi') -> lreach s' psi'.
End Valid.
End LocalSpec.
Arguments lact T : clear implicits.
