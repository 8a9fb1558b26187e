(** The site types: the states and quantum numbers of the site index, the operator tables, ITensor::set, SiteSet::op.
    itensor/mps/sites/{spinhalf,spinone,spintwo,customspin,boson,fermion,electron,tj,Z3}.h, itensor/mps/siteset.h.

    Simplifications: exact arithmetic over a field with a square root; tensors are the functions of their elements; states
    are numbered from 0; a quantum number is the list of its (value, modulus), in the order written in the constructor;
    overloads with deprecated arguments are left out. *)
From Coq Require Import List Arith Bool ZArith String Ascii DecimalString.
From Verif Require SiteOpsModel.
From Verif Require Import Util PadeSpec StSpec.
Import ListNotations.
Local Open Scope outcome_scope.
Local Open Scope string_scope.
Local Open Scope nat_scope.

(** The site types; CustomSpin with 2S, Boson with MaxOcc, Fermion with its SiteNumber. *)
Inductive kind : Type := SpinHalf | SpinOne | SpinTwo | CustomSpin (D : nat) | Boson (M : nat) | Fermion (n : Z) | Electron | TJ | Z3.
Definition dim (k : kind) : nat :=
  match k with
  | SpinHalf => 2 | SpinOne => 3 | SpinTwo => 5 | CustomSpin D => D + 1 | Boson M => 1 + M | Fermion _ => 2 | Electron => 4 | TJ => 3 | Z3 => 3
  end.

(** Named arguments: Args::getBool(name,default), args.h *)
Definition args := string -> option bool.
Definition getBool (a : args) (name : string) (d : bool) : bool := match a name with Some b => b | None => d end.

Definition charge := list (Z * Z).
(** The quantum numbers of the states, None for an index without. *)
Definition states (k : kind) (a : args) : outcome (option (list charge)) :=
  let qns := getBool a "ConserveQNs" true in
  match k with
  | SpinHalf => (* spinhalf.h:34-62 *)
      let sz := getBool a "ConserveSz" qns in
      let par := getBool a "ConserveParity" false in
      Ok (if sz && par then Some [[(1, 1); (1, 2)]; [(-1, 1); (0, 2)]]%Z
          else if sz then Some [[(1, 1)]; [(-1, 1)]]%Z
          else if par then Some [[(1, 2)]; [(0, 2)]]%Z
          else None)
  | SpinOne => (* spinone.h:48-66 *)
      Ok (if getBool a "ConserveSz" qns then Some [[(2, 1)]; [(0, 1)]; [(-2, 1)]]%Z else None)
  | SpinTwo => (* spintwo.h:48-68 *)
      Ok (if getBool a "ConserveSz" qns then Some [[(4, 1)]; [(2, 1)]; [(0, 1)]; [(-2, 1)]; [(-4, 1)]]%Z else None)
  | CustomSpin D => (* customspin.h:24-75 *)
      let sz := getBool a "ConserveSz" qns in
      if D <? 1 then Err
      else if qns then
        if sz then Ok (Some (map (fun n => [(2 * Z.of_nat n - Z.of_nat D, 1)%Z]) (seq 0 (D + 1))))
        else Ok (Some (repeat [] (D + 1)))
      else if sz then Err else Ok None
  | Boson M => (* boson.h:34-70 *)
      let nb := getBool a "ConserveNb" qns in
      if qns then
        if nb then Ok (Some (map (fun n => [(Z.of_nat n, 1)%Z]) (seq 0 (1 + M))))
        else Ok (Some (repeat [] (1 + M)))
      else if nb then Err else Ok None
  | Fermion n => (* fermion.h:34-73 *)
      let nf := getBool a "ConserveNf" qns in
      Ok (if negb qns then None
          else if negb (getBool a "OddEvenUpDown" false) then
            if nf then Some [[(0, -1)]; [(1, -1)]]%Z else Some [[(0, -2)]; [(1, -2)]]%Z
          else Some [[(0, 1); (0, -1)]; [((if (Z.rem n 2 =? 1)%Z then 1 else -1), 1); (1, -1)]]%Z)
  | Electron => (* electron.h:34-80 *)
      let nf := getBool a "ConserveNf" qns in
      let sz := getBool a "ConserveSz" qns in
      Ok (if qns || nf || sz then
            Some (if nf && sz then [[(0, 1); (0, -1)]; [(1, 1); (1, -1)]; [(-1, 1); (1, -1)]; [(0, 1); (2, -1)]]%Z
                  else if nf then [[(0, -1)]; [(1, -1)]; [(1, -1)]; [(2, -1)]]%Z
                  else if sz then [[(0, 1); (0, -2)]; [(1, 1); (1, -2)]; [(-1, 1); (1, -2)]; [(0, 1); (0, -2)]]%Z
                  else [[(0, -2)]; [(1, -2)]; [(1, -2)]; [(0, -2)]]%Z)
          else None)
  | TJ => (* tj.h:34-74 *)
      let nf := getBool a "ConserveNf" qns in
      let sz := getBool a "ConserveSz" qns in
      let up := if sz then 1%Z else 0%Z in
      Ok (if qns || nf || sz then
            Some (if nf then [[(0, 1); (0, -1)]; [(up, 1); (1, -1)]; [(- up, 1); (1, -1)]]%Z
                  else if sz then [[(0, 1); (0, -2)]; [(1, 1); (1, -2)]; [(-1, 1); (1, -2)]]%Z
                  else [[(0, -2)]; [(1, -2)]; [(1, -2)]]%Z)
          else None)
  | Z3 => (* Z3.h:34-50 *)
      Ok (if qns then Some [[(0, 3)]; [(1, 3)]; [(2, 3)]]%Z else None)
  end.

(** str(n) of an int *)
Definition str (z : Z) : string := NilEmpty.string_of_int (Z.to_int z).
Fixpoint find_state (label : nat -> string) (name : string) (left n : nat) : outcome nat :=
  match left with
  | O => Err
  | S left' => if String.eqb name (label n) then Ok n else find_state label name left' (S n)
  end.
Fixpoint pick (l : list (list string)) (name : string) (n : nat) : outcome nat :=
  match l with
  | [] => Err
  | ss :: l' => if existsb (String.eqb name) ss then Ok n else pick l' name (S n)
  end.
(** The state methods: spinhalf.h:67-83, spinone.h:71-91, spintwo.h:73-100, customspin.h:81-91, boson.h:75-85, fermion.h:78-92,
    electron.h:85-110, tj.h:79-99, Z3.h:55-67. *)
Definition state (k : kind) (name : string) : outcome nat :=
  match k with
  | SpinHalf => pick [["Up"]; ["Dn"]] name 0
  | SpinOne => pick [["Up"; "+"]; ["Z0"; "0"]; ["Dn"; "-"]] name 0
  | SpinTwo => pick [["Up"; "4"]; ["Upi"; "2"]; ["Z0"; "0"]; ["Dni"; "-2"]; ["Dn"; "-4"]] name 0
  | CustomSpin D => find_state (fun n => str (2 * Z.of_nat n - Z.of_nat D)) name (D + 1) 0
  | Boson M => match find_state (fun n => str (Z.of_nat n)) name (1 + M) 0 with
               | Ok n => Ok n
               | _ => if String.eqb name "Emp" then Ok 0 else Err
               end
  | Fermion _ => pick [["Emp"; "0"]; ["Occ"; "1"]] name 0
  | Electron => pick [["0"; "Emp"]; ["+"; "Up"]; ["-"; "Dn"]; ["S"; "UpDn"]] name 0
  | TJ => pick [["0"; "Emp"]; ["+"; "Up"]; ["-"; "Dn"]] name 0
  | Z3 => pick [["0"]; ["1"]; ["2"]] name 0
  end.

(** QN arithmetic: a modulus of absolute value above 1 reduces the value (qn.cc, see C01). *)
Definition reduce (m v : Z) : Z := if (1 <? Z.abs m)%Z then (v mod Z.abs m)%Z else v.
(** The flux of the element (dag(s)=i, prime(s)=o). *)
Definition elt_flux (qs : list charge) (i o : nat) : list Z :=
  map (fun p => let '((vo, m), (vi, _)) := p in reduce m (vo - vi)) (combine (nth o qs []) (nth i qs [])).
Definition ket_flux (qs : list charge) (o : nat) : list Z := map (fun p => reduce (snd p) (fst p)) (nth o qs []).
Definition flux_eqb (a b : list Z) : bool := if list_eq_dec Z.eq_dec a b then true else false.

Section Ops.
Context {T : Type} (t0 t1 : T) (tadd tmul tsub : T -> T -> T) (topp tinv : T -> T) (rt : T -> T) (tg : trig T).
Notation N := (ofN t0 t1 tadd).
Notation mat := (@mat T).
Notation half := (half t0 t1 tadd tmul tinv).
Definition table := list (string * list (nat * nat * T)).
Definition neg1 := topp t1.

(** real.h:27-28 *)
Definition Sqrt2 := rt (N 2).
Definition ISqrt2 := tinv (rt (N 2)).
Definition i_ := t_i tg.
Notation "x * y" := (tmul x y).
Notation "- x" := (topp x).
(** spinhalf.h:86-174; 0 = Up, 1 = Dn. *)
Definition h := half t1.
Definition spinhalf_ops : table :=
  [("Sz", [(0, 0, h); (1, 1, - h)]);
   ("Sx", [(0, 1, h); (1, 0, h)]);
   ("ISy", [(0, 1, - h); (1, 0, h)]);
   ("Sy", [(0, 1, h * i_); (1, 0, - h * i_)]);
   ("Sp", [(1, 0, t1)]); ("S+", [(1, 0, t1)]);
   ("Sm", [(0, 1, t1)]); ("S-", [(0, 1, t1)]);
   ("projUp", [(0, 0, t1)]); ("projDn", [(1, 1, t1)]);
   ("S2", [(0, 0, N 3 * tinv (N 4)); (1, 1, N 3 * tinv (N 4))])].
(** spinone.h:95-230; 0 = Up, 1 = Z0, 2 = Dn. *)
Definition spinone_ops : table :=
  [("Sz", [(0, 0, t1); (2, 2, neg1)]);
   ("Sx", [(0, 1, ISqrt2); (1, 0, ISqrt2); (1, 2, ISqrt2); (2, 1, ISqrt2)]);
   ("ISy", [(0, 1, - ISqrt2); (1, 0, ISqrt2); (1, 2, - ISqrt2); (2, 1, ISqrt2)]);
   ("Sy", [(0, 1, ISqrt2 * i_); (1, 0, - ISqrt2 * i_); (1, 2, ISqrt2 * i_); (2, 1, - ISqrt2 * i_)]);
   ("Sp", [(2, 1, Sqrt2); (1, 0, Sqrt2)]); ("S+", [(2, 1, Sqrt2); (1, 0, Sqrt2)]);
   ("Sm", [(0, 1, Sqrt2); (1, 2, Sqrt2)]); ("S-", [(0, 1, Sqrt2); (1, 2, Sqrt2)]);
   ("Sz2", [(0, 0, t1); (2, 2, t1)]);
   ("Sx2", [(0, 0, h); (0, 2, h); (1, 1, t1); (2, 2, h); (2, 0, h)]);
   ("Sy2", [(0, 0, h); (0, 2, - h); (1, 1, t1); (2, 2, h); (2, 0, - h)]);
   ("projUp", [(0, 0, t1)]); ("projZ0", [(1, 1, t1)]); ("projDn", [(2, 2, t1)]);
   ("S2", [(0, 0, N 2); (2, 2, N 2); (1, 1, N 2)])].
(** spinone.h:189-213: the states along x, tensors with the one index s. *)
Definition spinone_kets : list (string * list (nat * T)) :=
  [("XUp", [(0, h); (1, ISqrt2); (2, h)]);
   ("XZ0", [(0, ISqrt2); (2, - ISqrt2)]);
   ("XDn", [(0, h); (1, - ISqrt2); (2, h)])].
(** spintwo.h:103-247; 0 = Up, 1 = Upi, 2 = Z0, 3 = Dni, 4 = Dn. *)
Definition val1 := rt (N 6) * tinv (N 2).
Definition val2 := rt (N 6).
Definition x52 := N 5 * tinv (N 2).
Definition x32 := N 3 * tinv (N 2).
Definition spintwo_ops : table :=
  [("Sz", [(0, 0, N 2); (1, 1, t1); (3, 3, neg1); (4, 4, - N 2)]);
   ("Sx", [(0, 1, t1); (1, 0, t1); (1, 2, val1); (2, 1, val1); (2, 3, val1); (3, 2, val1); (3, 4, t1); (4, 3, t1)]);
   ("ISy", [(0, 1, neg1); (1, 0, t1); (1, 2, - val1); (2, 1, val1); (2, 3, - val1); (3, 2, val1); (3, 4, neg1); (4, 3, t1)]);
   ("Sy", [(0, 1, t1 * i_); (1, 0, neg1 * i_); (1, 2, val1 * i_); (2, 1, - val1 * i_); (2, 3, val1 * i_); (3, 2, - val1 * i_); (3, 4, t1 * i_); (4, 3, neg1 * i_)]);
   ("Sp", [(1, 0, N 2); (2, 1, val2); (3, 2, val2); (4, 3, N 2)]); ("S+", [(1, 0, N 2); (2, 1, val2); (3, 2, val2); (4, 3, N 2)]);
   ("Sm", [(0, 1, N 2); (1, 2, val2); (2, 3, val2); (3, 4, N 2)]); ("S-", [(0, 1, N 2); (1, 2, val2); (2, 3, val2); (3, 4, N 2)]);
   ("Sz2", [(0, 0, N 4); (1, 1, t1); (3, 3, t1); (4, 4, N 4)]);
   ("Sx2", [(0, 0, t1); (0, 2, val1); (1, 1, x52); (1, 3, x32); (2, 0, val1); (2, 2, N 3); (2, 4, val1); (3, 1, x32); (3, 3, x52); (4, 2, val1); (4, 4, t1)]);
   ("Sy2", [(0, 0, t1); (0, 2, - val1); (1, 1, x52); (1, 3, - x32); (2, 0, - val1); (2, 2, N 3); (2, 4, - val1); (3, 1, - x32); (3, 3, x52); (4, 2, - val1); (4, 4, t1)]);
   ("projUp", [(0, 0, t1)]); ("projUpi", [(1, 1, t1)]); ("projZ0", [(2, 2, t1)]); ("projDni", [(3, 3, t1)]); ("projDn", [(4, 4, t1)]);
   ("S2", [(0, 0, N 6); (1, 1, N 6); (2, 2, N 6); (3, 3, N 6); (4, 3, N 6)])].
(** customspin.h:94-160, sz and the elements for i = k+1 *)
Definition csz (D k : nat) : T := tsub (tadd (- half (N D)) (N (k + 1))) t1.
Definition customspin_ops (D : nat) : table :=
  let sp k := (k, k + 1, rt (tsub (half (N D)) (csz D k) * tadd (tadd (half (N D)) (csz D k)) t1)) in
  let sm k := (k, k - 1, rt (tadd (half (N D)) (csz D k) * tadd (tsub (half (N D)) (csz D k)) t1)) in
  [("Sz", map (fun k => (k, k, csz D k)) (seq 0 (D + 1)));
   ("S+", map sp (seq 0 D));
   ("S-", map sm (seq 1 D));
   ("U+", map (fun k => (k, k + 1, t1)) (seq 0 D));
   ("U-", map (fun k => (k, k - 1, t1)) (seq 1 D));
   ("Sz2", map (fun k => (k, k, csz D k * csz D k)) (seq 0 (D + 1)))].
(** boson.h:88-125 *)
Definition boson_ops (M : nat) : table :=
  let num := map (fun n => (n - 1, n - 1, N (n - 1))) (seq 1 (1 + M)) in
  [("N", num); ("n", num);
   ("A", map (fun n => (n, n - 1, rt (N n))) (seq 1 M));
   ("Adag", map (fun n => (n - 1, n, rt (N n))) (seq 1 M))].
(** fermion.h:97-155; 0 = Emp, 1 = Occ. *)
Definition fermion_tab : table :=
  [("N", [(1, 1, t1)]); ("n", [(1, 1, t1)]); ("C", [(1, 0, t1)]); ("Cdag", [(0, 1, t1)]); ("A", [(1, 0, t1)]); ("Adag", [(0, 1, t1)]);
   ("F", [(0, 0, t1); (1, 1, neg1)]); ("FermiPhase", [(0, 0, t1); (1, 1, neg1)]); ("projEmp", [(0, 0, t1)]); ("projOcc", [(1, 1, t1)])].
(** electron.h:114-254; 0 = Emp, 1 = Up, 2 = Dn, 3 = UpDn. *)
Definition electron_tab : table :=
  [("Nup", [(1, 1, t1); (3, 3, t1)]); ("Ndn", [(2, 2, t1); (3, 3, t1)]); ("Nupdn", [(3, 3, t1)]); ("Ntot", [(1, 1, t1); (2, 2, t1); (3, 3, N 2)]);
   ("Cup", [(1, 0, t1); (3, 2, t1)]); ("Cdagup", [(0, 1, t1); (2, 3, t1)]); ("Cdn", [(2, 0, t1); (3, 1, neg1)]); ("Cdagdn", [(0, 2, t1); (1, 3, neg1)]);
   ("Aup", [(1, 0, t1); (3, 2, t1)]); ("Adagup", [(0, 1, t1); (2, 3, t1)]); ("Adn", [(2, 0, t1); (3, 1, t1)]); ("Adagdn", [(0, 2, t1); (1, 3, t1)]);
   ("FermiPhase", [(0, 0, t1); (1, 1, neg1); (2, 2, neg1); (3, 3, t1)]); ("F", [(0, 0, t1); (1, 1, neg1); (2, 2, neg1); (3, 3, t1)]);
   ("Fup", [(0, 0, t1); (1, 1, neg1); (2, 2, t1); (3, 3, neg1)]); ("Fdn", [(0, 0, t1); (1, 1, t1); (2, 2, neg1); (3, 3, neg1)]);
   ("Sz", [(1, 1, h); (2, 2, - h)]); ("S+", [(2, 1, t1)]); ("S-", [(1, 2, t1)]);
   ("S2", [(1, 1, N 3 * tinv (N 4)); (2, 2, N 3 * tinv (N 4))])].
(** tj.h:103-221; 0 = Emp, 1 = Up, 2 = Dn. *)
Definition tj_tab : table :=
  [("Nup", [(1, 1, t1)]); ("Ndn", [(2, 2, t1)]); ("Ntot", [(1, 1, t1); (2, 2, t1)]);
   ("Cup", [(1, 0, t1)]); ("Cdagup", [(0, 1, t1)]); ("Cdn", [(2, 0, t1)]); ("Cdagdn", [(0, 2, t1)]);
   ("Aup", [(1, 0, t1)]); ("Adagup", [(0, 1, t1)]); ("Adn", [(2, 0, t1)]); ("Adagdn", [(0, 2, t1)]);
   ("FermiPhase", [(0, 0, t1); (1, 1, neg1); (2, 2, neg1)]); ("F", [(0, 0, t1); (1, 1, neg1); (2, 2, neg1)]);
   ("Fup", [(0, 0, t1); (1, 1, neg1); (2, 2, t1)]); ("Fdn", [(0, 0, t1); (1, 1, t1); (2, 2, neg1)]);
   ("Sz", [(1, 1, h); (2, 2, - h)]); ("Sx", [(1, 2, t1); (2, 1, t1)]);
   ("Sp", [(2, 1, t1)]); ("S+", [(2, 1, t1)]); ("Sm", [(1, 2, t1)]); ("S-", [(1, 2, t1)])].
(** Z3.h:70-138 *)
Definition z3_ops : table :=
  [("N", [(1, 1, t1); (2, 2, N 2)]);
   ("Sig", [(0, 2, t1); (1, 0, t1); (2, 1, t1)]);
   ("SigDag", [(2, 0, t1); (0, 1, t1); (1, 2, t1)]);
   ("Tau", [(0, 0, t1); (1, 1, tadd (t_c2 tg) (t_s2 tg * i_)); (2, 2, tadd (t_c4 tg) (t_s4 tg * i_))]);
   ("TauDag", [(0, 0, t1); (1, 1, tsub (t_c2 tg) (t_s2 tg * i_)); (2, 2, tsub (t_c4 tg) (t_s4 tg * i_))]);
   ("Proj0", [(0, 0, t1)]); ("Proj1", [(1, 1, t1)]); ("Proj2", [(2, 2, t1)])].
Definition ops (k : kind) : table :=
  match k with
  | SpinHalf => spinhalf_ops | SpinOne => spinone_ops | SpinTwo => spintwo_ops | CustomSpin D => customspin_ops D | Boson M => boson_ops M
  | Fermion _ => fermion_tab | Electron => electron_tab | TJ => tj_tab | Z3 => z3_ops
  end.
Definition kets (k : kind) : list (string * list (nat * T)) := match k with SpinOne => spinone_kets | _ => [] end.
Definition lookup {A} (l : list (string * A)) (s : string) : option A :=
  match find (fun p => String.eqb (fst p) s) l with Some p => Some (snd p) | None => None end.

(** ITensor::set, itensor_impl.h:336-372, with allocReal and checkEltFluxInts (itensor.cc:863-880, itensor_impl.h:307-331): the
    first element fixes the flux, an element of another flux throws. The tensor is dense if the index has no quantum numbers. *)
Definition mset (M : mat) (i o : nat) (v : T) : mat := fun r c => if (r =? o) && (c =? i) then v else M r c.
Fixpoint set_all (qs : option (list charge)) (flux : option (list Z)) (l : list (nat * nat * T)) (M : mat) : outcome mat :=
  match l with
  | [] => Ok M
  | (i, o, v) :: l' =>
      match qs with
      | None => set_all qs flux l' (mset M i o v)
      | Some q =>
          let fl := elt_flux q i o in
          let cur := match flux with Some f => f | None => fl end in
          if flux_eqb fl cur then set_all qs (Some cur) l' (mset M i o v) else Err
      end
  end.
Fixpoint set_ket (qs : option (list charge)) (flux : option (list Z)) (l : list (nat * T)) (x : nat -> T) : outcome (nat -> T) :=
  match l with
  | [] => Ok x
  | (o, v) :: l' =>
      let x' := fun r => if r =? o then v else x r in
      match qs with
      | None => set_ket qs flux l' x'
      | Some q =>
          let fl := ket_flux q o in
          let cur := match flux with Some f => f | None => fl end in
          if flux_eqb fl cur then set_ket qs (Some cur) l' x' else Err
      end
  end.
Definition zeros : mat := fun _ _ => t0.
(** The op method of the site types: a matrix, or a ket for the names in kets. *)
Definition siteop (k : kind) (qs : option (list charge)) (name : string) : outcome (mat + (nat -> T)) :=
  match lookup (ops k) name with
  | Some l => let! M := set_all qs None l zeros in Ok (inl M)
  | None => match lookup (kets k) name with
            | Some l => let! x := set_ket qs None l (fun _ => t0) in Ok (inr x)
            | None => Err
            end
  end.
Definition identity (k : kind) (qs : option (list charge)) : outcome (mat + (nat -> T)) :=
  let! M := set_all qs None (map (fun j => (j, j, t1)) (seq 0 (dim k))) zeros in Ok (inl M).
(** SiteSet::op, siteset.h:362-417; fuel bounds the number of '*'. "Proj" with its State is op_proj; a product with a ket
    is not modelled (Err). *)
Fixpoint op_fuel (fuel : nat) (k : kind) (qs : option (list charge)) (name : string) : outcome (mat + (nat -> T)) :=
  if String.eqb name "Id" then identity k qs
  else if String.eqb name "F" then
    match siteop k qs name with Ok M => Ok M | Err => identity k qs | UB => UB end
  else match SiteOpsModel.split_star name with
       | Some (a, b) =>
           match fuel with
           | O => Err
           | S f => let! A := op_fuel f k qs a in let! B := op_fuel f k qs b in
                    match A, B with
                    | inl A, inl B => Ok (inl (mmul t0 tadd tmul (dim k) A B))
                    | _, _ => Err
                    end
           end
       | None => siteop k qs name
       end.
(** siteset.h:376-381: setElt(dag(v),prime(v)), v = s(n), which throws unless 1 <= n <= dim *)
Definition op_proj (k : kind) (qs : option (list charge)) (n : nat) : outcome (mat + (nat -> T)) :=
  if (1 <=? n) && (n <=? dim k) then let! M := set_all qs None [(n - 1, n - 1, t1)] zeros in Ok (inl M) else Err.
(** sites.op(name) for a site set made with the arguments a *)
Definition op (k : kind) (a : args) (name : string) : outcome (mat + (nat -> T)) :=
  let! qs := states k a in op_fuel (String.length name) k qs name.
End Ops.
