(** Sweep parameters and the sweep loop. itensor/mps/sweeps.h; periodicWrap of
    itensor/mps/mps.cc *)
From Coq Require Import List ZArith Bool.
From Verif Require Import Util.
Import ListNotations.

(** ** SweepSetter, sweeps.h:153-250 *)
Section Setter.
Context {T : Type}.

(** One element of "setter() = a, b, ...": a value, Args("Repeat",n), Args without
    "Repeat", or a function object. *)
Inductive item := Val (x : T) | Repeat (n : Z) | NoRepeat | Func (f : Z -> Z -> T).

(** The members v_, j_, last_val_ (sweeps.h:239-243). Positions are int: Z. *)
Record setter := mkSetter { sv : list T; sj : Z; slast : T }.

Definition nsweep_of (v : list T) : Z := (Z.of_nat (length v) - 1)%Z.

(** sweeps.h:158-166: last_val_ = v_[1], outside the vector if it has fewer than two
    elements *)
Definition setter_new (v : list T) : outcome setter :=
  obind (oget v 1) (fun x => Ok (mkSetter v 1 x)).

(** v_[j] = x *)
Definition vset (v : list T) (j : Z) (x : T) : list T := upd (Z.to_nat j) x v.

(** sweeps.h:184-193 *)
Definition set_val (s : setter) (x : T) : setter :=
  if (nsweep_of (sv s) <? sj s)%Z then s
  else mkSetter (vset (sv s) (sj s) x) (sj s + 1) x.

(** sweeps.h:202-206: for(n = 1; n < Repeat; ++n,++j_); [k] = iterations left *)
Fixpoint repeat_loop (k : nat) (s : setter) : setter :=
  match k with
  | O => s
  | S k' => if (nsweep_of (sv s) <? sj s)%Z then s
            else repeat_loop k' (mkSetter (vset (sv s) (sj s) (slast s)) (sj s + 1) (slast s))
  end.

(** sweeps.h:195-209 *)
Definition set_repeat (s : setter) (n : Z) : outcome setter :=
  if (sj s =? 1)%Z then Err else Ok (repeat_loop (Z.to_nat (n - 1)) s).

(** sweeps.h:229-232: for(; j_ <= nsweep_; ++j_) v_[j_] = f(j_,nsweep_); at most [length v]
    iterations *)
Fixpoint func_loop (k : nat) (f : Z -> Z -> T) (s : setter) : setter :=
  match k with
  | O => s
  | S k' => if (sj s <=? nsweep_of (sv s))%Z
            then func_loop k' f (mkSetter (vset (sv s) (sj s) (f (sj s) (nsweep_of (sv s)))) (sj s + 1) (slast s))
            else s
  end.

(** sweeps.h:225-235 *)
Definition set_func (s : setter) (f : Z -> Z -> T) : setter :=
  let s' := func_loop (length (sv s)) f s in
  mkSetter (sv s') (sj s') (last (sv s') (slast s')).

Definition set_item (s : setter) (i : item) : outcome setter :=
  match i with
  | Val x => Ok (set_val s x)
  | Repeat n => set_repeat s n
  | NoRepeat => Ok s
  | Func f => Ok (set_func s f)
  end.

Fixpoint set_items (s : setter) (l : list item) : outcome setter :=
  match l with
  | [] => Ok s
  | i :: l' => obind (set_item s i) (fun s' => set_items s' l')
  end.

(** sweeps.h:168-174, the destructor *)
Definition setter_finish (s : setter) : list T :=
  sv (func_loop (length (sv s)) (fun _ _ => slast s) s).

(** sweeps.maxdim() = i1, i2, ... (sweeps.h:176-182, 340-360) *)
Definition setter_assign (v : list T) (l : list item) : outcome (list T) :=
  obind (setter_new v) (fun s => obind (set_items s l) (fun s' => Ok (setter_finish s'))).
End Setter.
Arguments item : clear implicits.
Arguments setter : clear implicits.

(** ** tableInit, sweeps.h:421-450, for one column of the table together with maxdim (the
    columns are handled alike). [rows] are the values the stream extraction delivers
    line by line: (maxdim, x); after the last line extraction fails and leaves maxdim 0. *)
Fixpoint table_read (i : nat) (rows : list (Z * Z)) (n : nat) (v : list (Z * Z)) {struct n} : nat * list (Z * Z) :=
  match n with
  | O => (i - 1, v)                                     (* loop ended: n_last = nsweep_ *)
  | S n' => match rows with
            | [] => (i - 1, v)
            | r :: rows' => if (fst r =? 0)%Z then (i - 1, upd i r v)
                            else table_read (S i) rows' n' (upd i r v)
            end
  end.
Fixpoint table_fill (i k : nat) (x : Z * Z) (v : list (Z * Z)) : list (Z * Z) :=
  match k with
  | O => v
  | S k' => table_fill (S i) k' x (upd i x v)
  end.
Definition tableInit (nsweep : nat) (rows : list (Z * Z)) : list (Z * Z) :=
  let v0 := repeat (0, 0)%Z (nsweep + 1) in
  let '(n_last, v) := table_read 1 rows nsweep v0 in
  table_fill (n_last + 1) (nsweep - n_last) (nth n_last v (0, 0)%Z) v.

(** ** RampM, sweeps.h:252-277. The double expression is evaluated exactly; (int)
    truncates towards zero. (sw-1.)/(actual_nwarm-1.) is 0/0 when actual_nwarm is 1:
    conversion of NaN to int is undefined. *)
Definition rampM (start_m end_m nwarm sw nsweep : Z) : outcome Z :=
  let actual_nwarm := (if nwarm <? 0 then nsweep else Z.min (nwarm + 1) nsweep)%Z in
  if (sw <=? actual_nwarm)%Z then
    if (actual_nwarm - 1 =? 0)%Z then UB
    else Ok (Z.quot (start_m * (actual_nwarm - 1) + (sw - 1) * (end_m - start_m)) (actual_nwarm - 1))%Z
  else Ok end_m.

(** ** ExpM, sweeps.h:279-303, base = p/q exactly, int(...) truncates; a value outside the
    range of int is undefined behaviour. *)
Definition INT_MAX : Z := 2147483647.
Definition expM (start_m end_m p q sw : Z) : outcome Z :=
  let e := Z.quot (start_m * p ^ (sw - 1)) (q ^ (sw - 1)) in
  if ((INT_MAX <? e) || (e <? - INT_MAX - 1))%Z%bool then UB
  else if (e <=? 0)%Z then Ok end_m
  else Ok (Z.min e end_m).

(** ** sweepnext, sweeps.h:488-500 (int as Z) *)
Definition sweepnext (N numCenter min_b : Z) (st : Z * Z) : Z * Z :=
  let '(b, ha) := st in
  let inc := (if ha =? 1 then 1 else -1)%Z in
  let b' := (b + inc)%Z in
  if (b' =? (if ha =? 1 then N + 2 - numCenter else min_b - 1))%Z
  then (b' - inc, ha + 1)%Z
  else (b', ha).

(** The loop of dmrg.h:404:
    for(int b = 1, ha = 1; ha <= 2; sweepnext(b,ha,N,args)) visit(b,ha);
    None = not finished within the fuel. *)
Fixpoint sweep_loop (fuel : nat) (N numCenter min_b : Z) (st : Z * Z) : option (list (Z * Z)) :=
  match fuel with
  | O => None
  | S f => if (snd st <=? 2)%Z
           then match sweep_loop f N numCenter min_b (sweepnext N numCenter min_b st) with
                | Some l => Some (st :: l)
                | None => None
                end
           else Some []
  end.

(** ** periodicWrap, mps.cc:1380-1389; None = loop not finished within the fuel *)
Fixpoint wrap_up (fuel : nat) (j N : Z) : option Z :=
  match fuel with
  | O => None
  | S f => if (j <? 1)%Z then wrap_up f (j + N) N else Some j
  end.
Fixpoint wrap_down (fuel : nat) (j N : Z) : option Z :=
  match fuel with
  | O => None
  | S f => if (N <? j)%Z then wrap_down f (j - N) N else Some j
  end.
Definition periodicWrap (fuel : nat) (j N : Z) : option Z :=
  if (j <? 1)%Z then wrap_up fuel j N
  else if (N <? j)%Z then wrap_down fuel j N
  else Some j.

(** ** Negative positions, mps.cc:298 and 306, followed by A_.at(i) on N+2 elements *)
Definition mps_position (N i : Z) : outcome Z :=
  let i' := (if i <? 0 then N + i + 1 else i)%Z in
  if ((0 <=? i') && (i' <? N + 2))%Z%bool then Ok i' else Err.
