(** Model of the operator tables of ElectronSite and FermionSite and of SiteSet::op.
    A site operator is the matrix of its elements: entry (row r, column c) is the amplitude from
    state c to state r.  Entries are integers, so the two ElectronSite operators with fractional
    entries ("Sz" and "S2", electron.h:228-252) are left out. *)
From Coq Require Import List ZArith Arith Bool String Ascii.
From Verif Require Import Util AutoMpoModel.
Import ListNotations.
Local Open Scope string_scope.

Definition mat := list (list Z).
Definition mget (m : mat) (r c : nat) : Z := nth c (nth r m []) 0%Z.
(** A tensor with indices dag(s), prime(s), all elements zero except the listed
    (state, primed state, value): `Op.set(in,out',v)`. *)
Definition mk_mat (d : nat) (l : list (nat * nat * Z)) : mat :=
  map (fun r => map (fun c =>
     fold_left (fun acc e => let '(i, o, v) := e in if Nat.eqb i c && Nat.eqb o r then v else acc) l 0%Z)
     (seq 0 d)) (seq 0 d).
Definition mmul (d : nat) (a b : mat) : mat :=
  map (fun r => map (fun c => fold_left Z.add (map (fun k => (mget a r k * mget b k c)%Z) (seq 0 d)) 0%Z)
     (seq 0 d)) (seq 0 d).
Definition mid (d : nat) : mat := mk_mat d (map (fun k => (k, k, 1%Z)) (seq 0 d)).
Definition mneg (m : mat) : mat := map (map Z.opp) m.

Definition optable := list (string * list (nat * nat * Z)).
Definition tab_find (t : optable) (s : string) : option (list (nat * nat * Z)) :=
  match find (fun p => String.eqb (fst p) s) t with Some p => Some (snd p) | None => None end.

(** ElectronSite::op, itensor/mps/sites/electron.h:107-258; states 0..3 are Emp, Up, Dn, UpDn. *)
Definition electron_ops : optable :=
  [("Nup", [(1,1,1%Z); (3,3,1%Z)]);
   ("Ndn", [(2,2,1%Z); (3,3,1%Z)]);
   ("Nupdn", [(3,3,1%Z)]);
   ("Ntot", [(1,1,1%Z); (2,2,1%Z); (3,3,2%Z)]);
   ("Cup", [(1,0,1%Z); (3,2,1%Z)]);
   ("Cdagup", [(0,1,1%Z); (2,3,1%Z)]);
   ("Cdn", [(2,0,1%Z); (3,1,(-1)%Z)]);
   ("Cdagdn", [(0,2,1%Z); (1,3,(-1)%Z)]);
   ("Aup", [(1,0,1%Z); (3,2,1%Z)]);
   ("Adagup", [(0,1,1%Z); (2,3,1%Z)]);
   ("Adn", [(2,0,1%Z); (3,1,1%Z)]);
   ("Adagdn", [(0,2,1%Z); (1,3,1%Z)]);
   ("FermiPhase", [(0,0,1%Z); (1,1,(-1)%Z); (2,2,(-1)%Z); (3,3,1%Z)]);
   ("F", [(0,0,1%Z); (1,1,(-1)%Z); (2,2,(-1)%Z); (3,3,1%Z)]);
   ("Fup", [(0,0,1%Z); (1,1,(-1)%Z); (2,2,1%Z); (3,3,(-1)%Z)]);
   ("Fdn", [(0,0,1%Z); (1,1,1%Z); (2,2,(-1)%Z); (3,3,(-1)%Z)]);
   ("S+", [(2,1,1%Z)]);
   ("S-", [(1,2,1%Z)])].

(** FermionSite::op, itensor/mps/sites/fermion.h:93-147; states 0,1 are Emp, Occ. *)
Definition fermion_ops : optable :=
  [("N", [(1,1,1%Z)]);
   ("n", [(1,1,1%Z)]);
   ("C", [(1,0,1%Z)]);
   ("Cdag", [(0,1,1%Z)]);
   ("A", [(1,0,1%Z)]);
   ("Adag", [(0,1,1%Z)]);
   ("F", [(0,0,1%Z); (1,1,(-1)%Z)]);
   ("FermiPhase", [(0,0,1%Z); (1,1,(-1)%Z)]);
   ("projEmp", [(0,0,1%Z)]);
   ("projOcc", [(1,1,1%Z)])].

(** opname.find_first_of('*') and the two substrings, siteset.h:398-411. *)
Fixpoint split_star (s : string) : option (string * string) :=
  match s with
  | EmptyString => None
  | String c s' => if Ascii.eqb c "*"%char then Some (EmptyString, s')
                   else match split_star s' with Some (a, b) => Some (String c a, b) | None => None end
  end.

(** SiteSet::op, siteset.h:362-417, with multSiteOps, itensor.cc:1287-1294 (the second factor acts
    first).  Fuel bounds the number of '*'.  "Proj" (siteset.h:376-381) is not modelled. *)
Fixpoint site_op (fuel d : nat) (t : optable) (s : string) : outcome mat :=
  if String.eqb s "Id" then Ok (mid d)
  else if String.eqb s "F" then
    match tab_find t s with Some l => Ok (mk_mat d l) | None => Ok (mid d) end
  else match split_star s with
       | Some (a, b) =>
           match fuel with
           | O => Err
           | S f => obind (site_op f d t a) (fun ma => obind (site_op f d t b) (fun mb => Ok (mmul d ma mb)))
           end
       | None => match tab_find t s with Some l => Ok (mk_mat d l) | None => Err end
       end.

Definition electron_op (s : string) : outcome mat := site_op (String.length s) 4 electron_ops s.
Definition fermion_op (s : string) : outcome mat := site_op (String.length s) 2 fermion_ops s.
