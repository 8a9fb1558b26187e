(** Model of DMRGObserver (itensor/mps/DMRGObserver.h) and of its use in the loop over sweeps of DMRGWorker
    (itensor/mps/dmrg.h:340-467).  Real is Q (exact arithmetic).  The energies and the spectra of the
    density matrices are functions of the sweep (and bond): what the rest of dmrg computes (DmrgModel.v).
    Not modelled: printing, the members max_eigs and max_te (only printed), classes derived from
    DMRGObserver. *)
From Coq Require Import List QArith Qabs Arith Bool.
From Verif Require Import Util.
Import ListNotations.
Open Scope outcome_scope.
Open Scope nat_scope.

Section Obs.
(** The entropy of the normalised eigenvalues: the loops of DMRGObserver.h:122-134, with a logarithm. *)
Context (entropy : list Q -> Q).

(** The members (DMRGObserver.h:62-75).  The member S gets no value from the constructor: None. *)
Record obs := mkObs { energy_errgoal : Q; entropy_errgoal : Q; printeigs : bool; entS : option Q; done_ : bool;
  last_energy_ : Q; last_entropy_ : option Q; last_spec_ : list Q }.
(** The constructor (DMRGObserver.h:81-95), the arguments given or their defaults. *)
Definition new_obs (eg sg : option Q) (pe : option bool) : obs :=
  mkObs (match eg with Some x => x | None => -1%Q end) (match sg with Some x => x | None => -1%Q end) (match pe with Some b => b | None => true end)
    None false 1000 (Some 1000%Q) [].
Definition set_spec (sp : list Q) (o : obs) : obs :=
  mkObs (energy_errgoal o) (entropy_errgoal o) (printeigs o) (entS o) (done_ o) (last_energy_ o) (last_entropy_ o) sp.
Definition set_S (s : Q) (o : obs) : obs :=
  mkObs (energy_errgoal o) (entropy_errgoal o) (printeigs o) (Some s) (done_ o) (last_energy_ o) (last_entropy_ o) (last_spec_ o).
Definition set_last (e : Q) (s : option Q) (o : obs) : obs :=
  mkObs (energy_errgoal o) (entropy_errgoal o) (printeigs o) (entS o) (done_ o) e s (last_spec_ o).
Definition set_done (o : obs) : obs :=
  mkObs (energy_errgoal o) (entropy_errgoal o) (printeigs o) (entS o) true (last_energy_ o) (last_entropy_ o) (last_spec_ o).

(** measure (DMRGObserver.h:97-167). *)
Definition measure (N b ha : nat) (silent : bool) (o : obs) : obs :=
  if negb silent && printeigs o
  then if (b =? N / 2) && (ha =? 2) then set_S (entropy (last_spec_ o)) o else o
  else o.

(** The files STOP_DMRG and STOP_DMRG_ALL. *)
Notation files := (bool * bool)%type.
Definition qltb (a b : Q) : bool := negb (Qle_bool b a).
Definition get (x : option Q) : outcome Q := match x with Some q => Ok q | None => UB end.

(** checkDone (DMRGObserver.h:170-247).  Copying S is allowed whatever it is, computing with an
    indeterminate value is undefined behaviour. *)
Definition checkDone (sw : nat) (energy : Q) (o : obs) (fs : files) : outcome (bool * obs * files) :=
  let o := if sw =? 1 then set_last 1000 (Some 1000%Q) o else o in
  let eg := energy_errgoal o in let sg := entropy_errgoal o in
  let! r1 := if qltb 0 eg && qltb sg 0 && (sw mod 2 =? 0)
             then Ok (if qltb (Qabs (energy - last_energy_ o)%Q) eg then Some (set_last 1000 (last_entropy_ o) o) else None)
             else Ok None in
  match r1 with Some o' => Ok (true, o', fs) | None =>
  let! r2 := if qltb eg 0 && qltb 0 sg && (sw mod 2 =? 0)
             then let! s := get (entS o) in let! ls := get (last_entropy_ o) in
                  Ok (if qltb (Qabs (s - ls)%Q) sg then Some (set_last (last_energy_ o) (Some 1000%Q) o) else None)
             else Ok None in
  match r2 with Some o' => Ok (true, o', fs) | None =>
  let! r3 := if qltb 0 eg && qltb 0 sg && (sw mod 2 =? 0)
             then let! s := get (entS o) in let! ls := get (last_entropy_ o) in
                  Ok (if qltb (Qabs (energy - last_energy_ o)%Q) eg && qltb (Qabs (s - ls)%Q) sg then Some (set_last 1000 (Some 1000%Q) o) else None)
             else Ok None in
  match r3 with Some o' => Ok (true, o', fs) | None =>
  let o := set_last energy (entS o) o in
  if fst fs then Ok (true, o, (false, snd fs))
  else if snd fs then Ok (true, set_done o, (fst fs, false))
  else Ok (done_ o, o, fs)
  end end end.

(** The bonds and halves a sweep visits (dmrg.h:404; C32 for sweepnext). *)
Definition visits (N : nat) : list (nat * nat) := map (fun b => (b, 1)) (seq 1 (N - 1)) ++ map (fun b => (b, 2)) (rev (seq 1 (N - 1))).
(** One sweep as the observer sees it (dmrg.h:404-446): lastSpectrum, then measure. *)
Definition watch (N : nat) (silent : bool) (spec : nat -> nat -> list Q) (o : obs) : obs :=
  fold_left (fun o v => measure N (fst v) (snd v) silent (set_spec (spec (fst v) (snd v)) o)) (visits N) o.
(** The loop over sweeps (dmrg.h:378-462) from sweep sw on, with n sweeps to go: the number of the last
    sweep done.  [created sw] are the files somebody creates during sweep sw. *)
Fixpoint sweeps_from (n sw N : nat) (silent : bool) (E : nat -> Q) (spec : nat -> nat -> nat -> list Q) (created : nat -> files) (o : obs) (fs : files)
  : outcome (nat * obs * files) :=
  match n with
  | 0 => Ok (sw - 1, o, fs)
  | S n' =>
      let fs := (fst fs || fst (created sw), snd fs || snd (created sw)) in
      let! (r, fs') := checkDone sw (E sw) (watch N silent (spec sw) o) fs in
      if fst r then Ok (sw, snd r, fs') else sweeps_from n' (S sw) N silent E spec created (snd r) fs'
  end.
Definition run (nsweep N : nat) (silent : bool) (E : nat -> Q) (spec : nat -> nat -> nat -> list Q) (created : nat -> files) (o : obs) (fs : files)
  : outcome (nat * obs * files) := sweeps_from nsweep 1 N silent E spec created o fs.
End Obs.
