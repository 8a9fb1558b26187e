(** C68: the operators of the site types satisfy the algebra their names promise. *)
From Coq Require Import List Arith Bool ZArith Lia Ring Field String Ascii DecimalString DecimalZ.
From Verif Require SiteOpsModel.
From Verif Require Import Util BigSum PadeSpec StSpec StModel StProofs.
Import ListNotations.
Local Open Scope outcome_scope.
Local Open Scope string_scope.
Local Open Scope nat_scope.

Section Sites.
Context {T : Type} (t0 t1 : T) (tadd tmul tsub : T -> T -> T) (topp : T -> T) (tdiv : T -> T -> T) (tinv : T -> T).
Context (tconj : T -> T) (rt : T -> T) (tg : trig T).
Context (SN : site_numbers t0 t1 tadd tmul tsub topp tdiv tinv tconj rt tg).
Let FT := sn_field _ _ _ _ _ _ _ _ _ _ _ SN.
Let RT := F_R FT.
Add Field FTstp : FT.
Notation N := (ofN t0 t1 tadd).
Notation mat := (@mat T). Notation mmul := (mmul t0 tadd tmul). Notation bsum := (bsum t0 tadd). Notation madd := (madd tadd).
Notation mscale := (mscale tmul). Notation mone := (mone t0 t1).
Notation op := (op t0 t1 tadd tmul tsub topp tinv rt tg).
Notation spin := (spin t0 t1 tadd tmul tsub topp tinv tconj). Notation half := (half t0 t1 tadd tmul tinv).
Notation filled := (@filled T). Notation zeros := (zeros t0).
Notation ops := (ops t0 t1 tadd tmul tsub topp tinv rt tg).

Let Hc0 := conj_0 t0 t1 tadd tmul tsub topp tdiv tinv tconj rt tg SN.
Let Hc1 := conj_1 t0 t1 tadd tmul tsub topp tdiv tinv tconj rt tg SN.
Let Hca := conj_add t0 t1 tadd tmul tsub topp tdiv tinv tconj rt tg SN.
Let Hcm := conj_mul t0 t1 tadd tmul tsub topp tdiv tinv tconj rt tg SN.
Let Hco := conj_opp t0 t1 tadd tmul tsub topp tdiv tinv tconj rt tg SN.
Let Hcs := conj_sub t0 t1 tadd tmul tsub topp tdiv tinv tconj rt tg SN.
Let HcN := conj_N t0 t1 tadd tmul tsub topp tdiv tinv tconj rt tg SN.
Let Hcr := sn_root_real _ _ _ _ _ _ _ _ _ _ _ SN.
Let HN2 : N 2 <> t0 := N2 t0 t1 tadd tmul tsub topp tdiv tinv tconj rt tg SN.
Let HN4 : N 4 <> t0 := sn_char _ _ _ _ _ _ _ _ _ _ _ SN 3.
Let Hc2 : tconj (tinv (N 2)) = tinv (N 2).
Proof. rewrite (conj_inv t0 t1 tadd tmul tsub topp tdiv tinv tconj rt tg SN) by exact HN2. now rewrite HcN. Qed.
Let Hc4 : tconj (tinv (N 4)) = tinv (N 4).
Proof. rewrite (conj_inv t0 t1 tadd tmul tsub topp tdiv tinv tconj rt tg SN) by exact HN4. now rewrite HcN. Qed.
Let E11 : tadd t1 t1 <> t0.
Proof. intros Q. apply HN2. cbn [ofN]. transitivity (tadd t1 t1); [ring|exact Q]. Qed.
Let E22 : tmul (tadd t1 t1) (tadd t1 t1) <> t0.
Proof. intros Q. apply HN4. cbn [ofN]. transitivity (tmul (tadd t1 t1) (tadd t1 t1)); [ring|exact Q]. Qed.
Let His := isqrt2 t0 t1 tadd tmul tsub topp tdiv tinv tconj rt tg SN.
Let Hr2 : tmul (rt (N 2)) (rt (N 2)) = tadd t1 t1.
Proof. rewrite (root_sq t0 t1 tadd tmul tsub topp tdiv tinv tconj rt tg SN). cbn [ofN]. ring. Qed.
Let Hr6 : tmul (rt (N 6)) (rt (N 6)) = tadd (tadd (tadd (tadd (tadd t1 t1) t1) t1) t1) t1.
Proof. rewrite (root_sq t0 t1 tadd tmul tsub topp tdiv tinv tconj rt tg SN). cbn [ofN]. ring. Qed.
Let Hii : tmul (t_i tg) (t_i tg) = topp t1 := sn_i _ _ _ _ _ _ _ _ _ _ _ SN.

Ltac simp :=
  cbv [StProofs.filled StModel.mset StModel.zeros Nat.eqb andb PadeSpec.mmul BigSum.bsum adjoint meq madj commutator anticommutator msub mneg PadeSpec.madd PadeSpec.mscale
       mzero PadeSpec.mone Sqrt2 h val1 val2 x52 x32 neg1 StSpec.half i_ fold_left seq map Nat.add fst snd];
  rewrite ?His, ?Hco, ?Hcm, ?Hca, ?Hcs, ?HcN, ?Hcr, ?Hc2, ?Hc4, ?Hc0, ?Hc1.
Ltac close :=
  first [reflexivity
        | generalize Hr2 Hr6; generalize (rt (N 2)) (rt (N 6)); cbn [ofN]; intros r2 r6 R2 R6; field [R2 R6 Hii]; repeat split; first [exact E11|exact E22]
        | generalize Hr2 Hr6; generalize (rt (N 2)) (rt (N 6)); cbn [ofN]; intros r2 r6 R2 R6; ring [R2 R6 Hii]].
Ltac two i Hi := destruct i as [|[|i]]; [| |exfalso; clear -Hi; lia].
Ltac three i Hi := destruct i as [|[|[|i]]]; [| | |exfalso; clear -Hi; lia].
Ltac four i Hi := destruct i as [|[|[|[|i]]]]; [| | | |exfalso; clear -Hi; lia].
Ltac five i Hi := destruct i as [|[|[|[|[|i]]]]]; [| | | | |exfalso; clear -Hi; lia].
Ltac fin c := let i := fresh "i" in let j := fresh "j" in let Hi := fresh "Hi" in let Hj := fresh "Hj" in intros i j Hi Hj; c i Hi; c j Hj; clear Hi Hj; simp; close.


Notation spin_x := (spin_x t0 t1 tadd tmul tinv). Notation spin_iy := (spin_iy t0 t1 tadd tmul tsub tinv). Notation spin_y := (spin_y tmul tg).
Notation boson := (boson t0 t1 tadd tmul tsub topp tconj rt). Notation mzero := (mzero t0). Notation msub := (msub tsub). Notation mneg := (mneg topp).
Notation fermion_mode := (fermion_mode t0 t1 tadd tmul tconj). Notation anticommute := (anticommute t0 tadd tmul). Notation parity_of := (parity_of t0 t1 tadd tmul tsub).
Notation commutator := (commutator t0 tadd tmul tsub). Notation anticommutator := (anticommutator t0 tadd tmul). Notation adjoint := (adjoint tconj).

(** The sites that are spins, with 2S. *)
Definition spin_site (k : kind) (D : nat) : Prop :=
  match k with SpinHalf => D = 1 | SpinOne => D = 2 | SpinTwo => D = 4 | CustomSpin d => D = d | _ => False end.
(** Whether the arguments ask to conserve the named quantity. *)
Definition conserves (a : args) (name : string) : bool := getBool a name (getBool a "ConserveQNs" true).
Definition operator (k : kind) (a : args) (name : string) (M : mat) : Prop := op k a name = Ok (inl M).
Ltac custom E D z :=
  eapply op_tab; [exact E|reflexivity|reflexivity|reflexivity|];
  apply (fluxes_linear (D + 1) (fun n => 2 * Z.of_nat n - Z.of_nat D)%Z) with (d := z); [by_states E; auto|intros; lia].
Ltac bos E M z :=
  eapply op_tab; [exact E|reflexivity|reflexivity|reflexivity|];
  apply (fluxes_linear (1 + M) (fun n => Z.of_nat n)) with (d := z); [by_states E; auto|intros; lia].
Ltac with_sz E CS :=
  let E' := fresh in pose proof E as E'; cbn [states] in E'; rewrite CS in E'; rewrite ?orb_true_r, ?orb_false_r, ?andb_true_r, ?andb_false_r in E'; cbn [andb orb negb] in E';
  repeat match type of E' with context [if ?b then _ else _] => destruct b end; injection E' as <-.
Ltac get_err E CS := with_sz E CS; (eapply op_err; [exact E|reflexivity..]).
Ltac get_op_sz E CS := eapply op_tab; [exact E|reflexivity|reflexivity|reflexivity|with_sz E CS; reflexivity].
(** Whatever is conserved, Sz, S+ and S- exist and are a spin. *)
Theorem C68_spin k D a qs : spin_site k D -> states k a = Ok qs ->
  exists Sz Sp Sm, operator k a "Sz" Sz /\ operator k a "S+" Sp /\ operator k a "S-" Sm /\ spin D Sz Sp Sm.
Proof.
  unfold operator. intros HK E. destruct k; cbn [spin_site] in HK; try (exfalso; exact HK).
  - subst D. do 3 eexists. split; [|split; [|split]]; [get_op E..|]. unfold StSpec.spin. cbv zeta. repeat apply conj. all: fin two.
  - subst D. do 3 eexists. split; [|split; [|split]]; [get_op E..|]. unfold StSpec.spin. cbv zeta. repeat apply conj. all: fin three.
  - subst D. do 3 eexists. split; [|split; [|split]]; [get_op E..|]. unfold StSpec.spin. cbv zeta. repeat apply conj. all: fin five.
  - subst D0. exists (entry t0 t1 tadd tmul tsub topp tinv rt "Sz" D), (entry t0 t1 tadd tmul tsub topp tinv rt "S+" D), (entry t0 t1 tadd tmul tsub topp tinv rt "S-" D).
    split; [|split; [|split]].
    4: { eapply custom_spin; eassumption. }
    1: custom E D 0%Z. 1: custom E D 2%Z. custom E D (-2)%Z.
Qed.
(** CustomSpin also has Sz2 = Sz Sz and the shifts of the states. *)
Theorem C68_custom_spin D a qs : states (CustomSpin D) a = Ok qs ->
  exists Sz Sz2 Up Um, operator (CustomSpin D) a "Sz" Sz /\ operator (CustomSpin D) a "Sz2" Sz2 /\ operator (CustomSpin D) a "U+" Up /\ operator (CustomSpin D) a "U-" Um /\
    meq (D + 1) Sz2 (mmul (D + 1) Sz Sz) /\
    meq (D + 1) Up (fun r c => if r =? c + 1 then t1 else t0) /\ meq (D + 1) Um (fun r c => if c =? r + 1 then t1 else t0).
Proof.
  unfold operator. intros E. exists (entry t0 t1 tadd tmul tsub topp tinv rt "Sz" D), (entry t0 t1 tadd tmul tsub topp tinv rt "Sz2" D), (entry t0 t1 tadd tmul tsub topp tinv rt "U+" D), (entry t0 t1 tadd tmul tsub topp tinv rt "U-" D).
  split; [custom E D 0%Z|]. split; [custom E D 0%Z|]. split; [custom E D 2%Z|]. split; [custom E D (-2)%Z|].
  split; [eapply custom_sz2; eassumption|]. split; intros r c Hr Hc; [eapply up_entry; eassumption|eapply um_entry; eassumption].
Qed.
(** Sx, ISy and Sy of the spins 1/2, 1 and 2 exist exactly when Sz is not conserved, and are what S+ and S- say. *)
Theorem C68_spin_xy k D a qs : In (k, D) [(SpinHalf, 1); (SpinOne, 2); (SpinTwo, 4)] -> states k a = Ok qs ->
  if conserves a "ConserveSz" then op k a "Sx" = Err /\ op k a "ISy" = Err /\ op k a "Sy" = Err
  else exists Sx ISy Sy Sp Sm, operator k a "Sx" Sx /\ operator k a "ISy" ISy /\ operator k a "Sy" Sy /\ operator k a "S+" Sp /\ operator k a "S-" Sm /\
         spin_x (S D) Sx Sp Sm /\ spin_iy (S D) ISy Sp Sm /\ spin_y (S D) Sy ISy.
Proof.
  unfold operator, conserves. intros HK E. destruct (getBool a "ConserveSz" (getBool a "ConserveQNs" true)) eqn:CS.
  - destruct HK as [[= <- <-]|[[= <- <-]|[[= <- <-]|[]]]]; repeat apply conj; get_err E CS.
  - destruct HK as [[= <- <-]|[[= <- <-]|[[= <- <-]|[]]]]; do 5 eexists.
    all: split; [|split; [|split; [|split; [|split; [|split; [|split]]]]]].
    1-5,9-13,17-21: get_op_sz E CS.
    1-3: fin two. 1-3: fin three. all: fin five.
Qed.
Theorem C68_spin_squares k D a qs : In (k, D) [(SpinOne, 2); (SpinTwo, 4)] -> states k a = Ok qs ->
  (exists Sz Sz2, operator k a "Sz" Sz /\ operator k a "Sz2" Sz2 /\ meq (S D) Sz2 (mmul (S D) Sz Sz)) /\
  if conserves a "ConserveSz" then op k a "Sx2" = Err /\ op k a "Sy2" = Err
  else exists Sx Sy Sx2 Sy2, operator k a "Sx" Sx /\ operator k a "Sy" Sy /\ operator k a "Sx2" Sx2 /\ operator k a "Sy2" Sy2 /\
         meq (S D) Sx2 (mmul (S D) Sx Sx) /\ meq (S D) Sy2 (mmul (S D) Sy Sy).
Proof.
  unfold operator, conserves. intros HK E. split.
  { destruct HK as [[= <- <-]|[[= <- <-]|[]]]; do 2 eexists; (split; [get_op E|split; [get_op E|]]); [fin three|fin five]. }
  destruct (getBool a "ConserveSz" (getBool a "ConserveQNs" true)) eqn:CS.
  - destruct HK as [[= <- <-]|[[= <- <-]|[]]]; repeat apply conj; get_err E CS.
  - destruct HK as [[= <- <-]|[[= <- <-]|[]]]; do 4 eexists.
    all: split; [|split; [|split; [|split; [|split]]]].
    1-4,7-10: get_op_sz E CS.
    1-2: fin three. all: fin five.
Qed.
(** S2 is S.S for the spins 1/2 and 1. *)
Theorem C68_S2 k D a qs : In (k, D) [(SpinHalf, 1); (SpinOne, 2)] -> states k a = Ok qs ->
  exists S2, operator k a "S2" S2 /\ meq (S D) S2 (mscale (tmul (half (N D)) (tadd (half (N D)) t1)) mone).
Proof. unfold operator. intros HK E. destruct HK as [[= <- <-]|[[= <- <-]|[]]]; eexists; (split; [get_op E|]); [fin two|fin three]. Qed.
(** S2 of the spin 2 is not: without quantum numbers its element between the states Dn is 0, and with Sz conserved it throws. *)
Theorem C68_spin_two_S2_refuted :
  ~ (forall a qs, states SpinTwo a = Ok qs -> exists S2, operator SpinTwo a "S2" S2 /\ meq 5 S2 (mscale (N 6) mone)) /\
  (forall a qs, states SpinTwo a = Ok qs -> if conserves a "ConserveSz" then op SpinTwo a "S2" = Err
     else exists S2, operator SpinTwo a "S2" S2 /\ forall n, state SpinTwo "Dn" = Ok n -> S2 n n = t0).
Proof.
  split.
  - intros H. destruct (H (fun _ => None) _ eq_refl) as (S2 & A & _). revert A. unfold operator. erewrite (op_err t0 t1 tadd tmul tsub topp tinv rt tg); [|reflexivity..]. discriminate.
  - unfold operator, conserves. intros a qs E. destruct (getBool a "ConserveSz" (getBool a "ConserveQNs" true)) eqn:CS.
    + get_err E CS.
    + eexists. split; [get_op_sz E CS|].
      intros n [= <-]. reflexivity.
Qed.
(** Bosons, for every MaxOcc. *)
Theorem C68_boson M a qs : states (Boson M) a = Ok qs ->
  exists Nb A Ad, operator (Boson M) a "N" Nb /\ operator (Boson M) a "n" Nb /\ operator (Boson M) a "A" A /\ operator (Boson M) a "Adag" Ad /\ boson M Nb A Ad.
Proof.
  unfold operator. intros E. exists (bentry t0 t1 tadd rt "N" M), (bentry t0 t1 tadd rt "A" M), (bentry t0 t1 tadd rt "Adag" M).
  split; [bos E M 0%Z|]. split; [bos E M 0%Z|]. split; [bos E M (-1)%Z|]. split; [bos E M 1%Z|]. eapply boson_ok; eassumption.
Qed.
(** One species of fermions. *)
Theorem C68_fermion n a qs : states (Fermion n) a = Ok qs ->
  exists Nf C Cd F A Ad, operator (Fermion n) a "N" Nf /\ operator (Fermion n) a "C" C /\ operator (Fermion n) a "Cdag" Cd /\ operator (Fermion n) a "F" F /\
    operator (Fermion n) a "A" A /\ operator (Fermion n) a "Adag" Ad /\
    fermion_mode 2 C Cd Nf /\ parity_of 2 F Nf /\ anticommute 2 F C /\ meq 2 A C /\ meq 2 Ad Cd.
Proof.
  unfold operator. intros E. do 6 eexists. split; [get_op E|]. split; [get_op E|]. split; [get_op E|]. split; [get_op E|]. split; [get_op E|]. split; [get_op E|].
  unfold StSpec.fermion_mode, StSpec.parity_of, StSpec.anticommute. repeat apply conj; fin two.
Qed.
(** Electrons: two anticommuting modes and the parity; the spin and number operators are made of them; the A operators are
    the C operators without the sign between up and down. *)
Theorem C68_electron a qs : states Electron a = Ok qs ->
  exists Nup Ndn Ntot Nupdn Cup Cdagup Cdn Cdagdn,
    operator Electron a "Nup" Nup /\ operator Electron a "Ndn" Ndn /\ operator Electron a "Ntot" Ntot /\ operator Electron a "Nupdn" Nupdn /\
    operator Electron a "Cup" Cup /\ operator Electron a "Cdagup" Cdagup /\ operator Electron a "Cdn" Cdn /\ operator Electron a "Cdagdn" Cdagdn /\
    fermion_mode 4 Cup Cdagup Nup /\ fermion_mode 4 Cdn Cdagdn Ndn /\ anticommute 4 Cup Cdn /\ anticommute 4 Cup Cdagdn /\
    meq 4 Ntot (madd Nup Ndn) /\ meq 4 Nupdn (mmul 4 Nup Ndn).
Proof.
  unfold operator. intros E. do 8 eexists. do 8 (split; [get_op E|]).
  unfold StSpec.fermion_mode, StSpec.anticommute. repeat apply conj; fin four.
Qed.
Theorem C68_electron_parity a qs : states Electron a = Ok qs ->
  exists Nup Ndn F Fup Fdn Cup Cdn Aup Adn Adagup Adagdn,
    operator Electron a "Nup" Nup /\ operator Electron a "Ndn" Ndn /\ operator Electron a "F" F /\ operator Electron a "Fup" Fup /\ operator Electron a "Fdn" Fdn /\
    operator Electron a "Cup" Cup /\ operator Electron a "Cdn" Cdn /\ operator Electron a "Aup" Aup /\ operator Electron a "Adn" Adn /\
    operator Electron a "Adagup" Adagup /\ operator Electron a "Adagdn" Adagdn /\
    parity_of 4 Fup Nup /\ parity_of 4 Fdn Ndn /\ meq 4 F (mmul 4 Fup Fdn) /\ anticommute 4 F Cup /\ anticommute 4 F Cdn /\
    meq 4 Cup Aup /\ meq 4 Cdn (mmul 4 Fup Adn) /\ adjoint 4 Adagup Aup /\ adjoint 4 Adagdn Adn /\ meq 4 (commutator 4 Aup Adn) mzero /\ meq 4 (commutator 4 Aup Adagdn) mzero.
Proof.
  unfold operator. intros E. do 11 eexists. do 11 (split; [get_op E|]).
  unfold StSpec.parity_of, StSpec.anticommute. repeat apply conj; fin four.
Qed.
Theorem C68_electron_spin a qs : states Electron a = Ok qs ->
  exists Nup Ndn Cup Cdagup Cdn Cdagdn Sz Sp Sm S2,
    operator Electron a "Nup" Nup /\ operator Electron a "Ndn" Ndn /\
    operator Electron a "Cup" Cup /\ operator Electron a "Cdagup" Cdagup /\ operator Electron a "Cdn" Cdn /\ operator Electron a "Cdagdn" Cdagdn /\
    operator Electron a "Sz" Sz /\ operator Electron a "S+" Sp /\ operator Electron a "S-" Sm /\ operator Electron a "S2" S2 /\
    meq 4 Sz (mscale (half t1) (msub Nup Ndn)) /\ meq 4 Sp (mmul 4 Cdagup Cdn) /\ meq 4 Sm (mmul 4 Cdagdn Cup) /\
    meq 4 S2 (madd (mmul 4 Sz Sz) (mscale (half t1) (anticommutator 4 Sp Sm))).
Proof.
  unfold operator. intros E. do 10 eexists. do 10 (split; [get_op E|]). repeat apply conj; fin four.
Qed.
(** The t-J site has the operators of the electron site, without the doubly occupied state. *)
Theorem C68_tj a qs name a' qs' : states TJ a = Ok qs -> states Electron a' = Ok qs' ->
  In name ["Nup"; "Ndn"; "Ntot"; "Cup"; "Cdagup"; "Cdn"; "Cdagdn"; "Aup"; "Adagup"; "Adn"; "Adagdn"; "F"; "FermiPhase"; "Fup"; "Fdn"; "Sz"; "S+"; "S-"] ->
  exists A B, operator TJ a name A /\ operator Electron a' name B /\ meq 3 A B.
Proof.
  unfold operator. intros E E' HN. cbn [In] in HN. repeat match goal with H : _ \/ _ |- _ => destruct H as [<-|H] end; [..|exfalso; exact HN].
  all: do 2 eexists; split; [get_op E|split; [get_op E'|fin three]].
Qed.
(** Its Sx is twice (S+ + S-)/2. *)
Theorem C68_tj_Sx_refuted :
  ~ (forall a qs, states TJ a = Ok qs -> conserves a "ConserveSz" = false -> exists Sx Sp Sm, operator TJ a "Sx" Sx /\ operator TJ a "S+" Sp /\ operator TJ a "S-" Sm /\ spin_x 3 Sx Sp Sm) /\
  (forall a qs, states TJ a = Ok qs -> if conserves a "ConserveSz" then op TJ a "Sx" = Err
     else exists Sx Sp Sm, operator TJ a "Sx" Sx /\ operator TJ a "S+" Sp /\ operator TJ a "S-" Sm /\ meq 3 Sx (madd Sp Sm)).
Proof.
  assert (P : forall a qs, states TJ a = Ok qs -> if conserves a "ConserveSz" then op TJ a "Sx" = Err
     else exists Sx Sp Sm, operator TJ a "Sx" Sx /\ operator TJ a "S+" Sp /\ operator TJ a "S-" Sm /\ meq 3 Sx (madd Sp Sm)).
  { unfold operator, conserves. intros a qs E. destruct (getBool a "ConserveSz" (getBool a "ConserveQNs" true)) eqn:CS.
    - get_err E CS.
    - do 3 eexists. do 3 (split; [get_op_sz E CS|]). fin three. }
  split; [|exact P]. intros H. set (a := fun s => if String.eqb s "ConserveQNs" then Some false else None).
  destruct (H a None eq_refl eq_refl) as (Sx & Sp & Sm & O1 & O2 & O3 & X). destruct (P a None eq_refl) as (Sx' & Sp' & Sm' & O1' & O2' & O3' & X').
  unfold operator in *. rewrite O1 in O1'. rewrite O2 in O2'. rewrite O3 in O3'. injection O1' as <-. injection O2' as <-. injection O3' as <-.
  assert (E1 : Sx 1 2 = t1). { unfold a in O1. cbn in O1. injection O1 as <-. reflexivity. }
  specialize (X 1 2 ltac:(lia) ltac:(lia)). specialize (X' 1 2 ltac:(lia) ltac:(lia)). unfold PadeSpec.mscale in X. rewrite <- X', E1 in X.
  unfold StSpec.half in X. cbn [ofN] in X.
  assert (Q : tmul (tadd t1 t1) (tmul (tmul t1 (tinv (tadd (tadd t0 t1) t1))) t1) = t1) by (field; exact E11). rewrite <- X in Q.
  apply (F_1_neq_0 FT). transitivity (tsub (tmul (tadd t1 t1) t1) t1); [ring|]. rewrite Q. ring.
Qed.
(** The clock operators: Sig lowers the state, Tau measures it, Sig Tau = w Tau Sig with w = exp(2 pi i/3). *)
Theorem C68_z3 a qs : states Z3 a = Ok qs ->
  let w := tadd (t_c2 tg) (tmul (t_s2 tg) (t_i tg)) in
  exists Nz Sig SigDag Tau TauDag, operator Z3 a "N" Nz /\ operator Z3 a "Sig" Sig /\ operator Z3 a "SigDag" SigDag /\ operator Z3 a "Tau" Tau /\ operator Z3 a "TauDag" TauDag /\
    adjoint 3 SigDag Sig /\ adjoint 3 TauDag Tau /\ meq 3 (mmul 3 Sig (mmul 3 Sig Sig)) mone /\ meq 3 (mmul 3 Tau (mmul 3 Tau Tau)) mone /\
    meq 3 (mmul 3 Sig SigDag) mone /\ meq 3 (mmul 3 Tau TauDag) mone /\
    meq 3 (mmul 3 Sig Tau) (mscale w (mmul 3 Tau Sig)) /\
    meq 3 Nz (fun r c => if r =? c then N r else t0) /\ (forall n, n < 3 -> Sig n ((n + 1) mod 3) = t1).
Proof.
  intros E w. unfold operator. do 5 eexists. do 5 (split; [get_op E|]).
  pose proof (sn_c2 _ _ _ _ _ _ _ _ _ _ _ SN) as C2. pose proof (sn_c4 _ _ _ _ _ _ _ _ _ _ _ SN) as C4. pose proof (sn_s2 _ _ _ _ _ _ _ _ _ _ _ SN) as S2. pose proof (sn_s4 _ _ _ _ _ _ _ _ _ _ _ SN) as S4.
  pose proof (sn_s2_real _ _ _ _ _ _ _ _ _ _ _ SN) as SR. pose proof (sn_i_conj _ _ _ _ _ _ _ _ _ _ _ SN) as IC.
  set (u := tadd (t_s2 tg) (t_s2 tg)).
  assert (EC : t_c2 tg = topp (tinv (N 2))). { transitivity (tmul (tinv (N 2)) (tmul (N 2) (t_c2 tg))); [field; exact HN2|]. rewrite C2. field. exact HN2. }
  assert (ES : t_s2 tg = tmul u (tinv (N 2))). { unfold u. cbn [ofN]. field. exact E11. }
  assert (CU : tconj u = u). { unfold u. now rewrite Hca, SR. }
  assert (U2 : tmul u u = tadd (tadd t1 t1) t1). { transitivity (tmul (N 4) (tmul (t_s2 tg) (t_s2 tg))); [unfold u; cbn [ofN]; ring|]. rewrite S2. cbn [ofN]. ring. }
  assert (CC : tconj (tinv (N 2)) = tinv (N 2)) by exact Hc2.
  unfold w. clearbody u. rewrite C4, S4, EC, ES. clear C2 C4 S2 S4 EC ES.
  repeat apply conj; try (intros i j Hi Hj; three i Hi; three j Hj; clear Hi Hj; simp; repeat (progress rewrite ?Hco, ?Hcm, ?Hca, ?Hcs, ?CU, ?CC, ?IC);
    first [reflexivity|cbn [ofN]; field [U2 Hii]; repeat split; first [exact E11|exact E22]|cbn [ofN]; ring [U2 Hii]]).
  intros n Hn. three n Hn; reflexivity.
Qed.
(** The states along x of the spin 1 are the normalised eigenvectors of Sx; they exist when Sz is not conserved. *)
Definition apply_to (n : nat) (A : mat) (x : nat -> T) : nat -> T := fun i => bsum n (fun j => tmul (A i j) (x j)).
Theorem C68_kets a qs name v : states SpinOne a = Ok qs -> In (name, v) [("XUp", 1%Z); ("XZ0", 0%Z); ("XDn", (-1)%Z)] ->
  if conserves a "ConserveSz" then op SpinOne a name = Err
  else exists Sx x, operator SpinOne a "Sx" Sx /\ op SpinOne a name = Ok (inr x) /\
         (forall i, i < 3 -> apply_to 3 Sx x i = tmul (ofZ t0 t1 tadd topp v) (x i)) /\ bsum 3 (fun i => tmul (tconj (x i)) (x i)) = t1.
Proof.
  unfold operator, conserves. intros E HN. assert (HC := Hc2). destruct (getBool a "ConserveSz" (getBool a "ConserveQNs" true)) eqn:CS.
  - destruct HN as [[= <- <-]|[[= <- <-]|[[= <- <-]|[]]]]; unfold StModel.op; rewrite E; with_sz E CS; reflexivity.
  - destruct HN as [[= <- <-]|[[= <- <-]|[[= <- <-]|[]]]]; do 2 eexists; (split; [get_op_sz E CS|]); (split; [unfold StModel.op; rewrite E; with_sz E CS; reflexivity|]).
    all: split; [intros i Hi; three i Hi; clear Hi|]; unfold apply_to, ofZ; change (Pos.to_nat 1) with 1; simp; close.
Qed.
(** The names of the states: twice the Sz of the spins, the occupations of the others. *)
Theorem C68_state_names k s v a qs :
  In (k, s, v) [(SpinHalf, "Up", 1%Z); (SpinHalf, "Dn", (-1)%Z); (SpinOne, "Up", 2%Z); (SpinOne, "+", 2%Z); (SpinOne, "Z0", 0%Z); (SpinOne, "0", 0%Z); (SpinOne, "Dn", (-2)%Z); (SpinOne, "-", (-2)%Z);
                (SpinTwo, "Up", 4%Z); (SpinTwo, "4", 4%Z); (SpinTwo, "Upi", 2%Z); (SpinTwo, "2", 2%Z); (SpinTwo, "Z0", 0%Z); (SpinTwo, "0", 0%Z); (SpinTwo, "Dni", (-2)%Z); (SpinTwo, "-2", (-2)%Z);
                (SpinTwo, "Dn", (-4)%Z); (SpinTwo, "-4", (-4)%Z)] ->
  states k a = Ok qs -> exists n Sz, state k s = Ok n /\ operator k a "Sz" Sz /\ tmul (N 2) (Sz n n) = ofZ t0 t1 tadd topp v.
Proof.
  unfold operator. intros HN E. cbn [In] in HN. repeat match goal with H : _ \/ _ |- _ => destruct H as [H|H]; [injection H as <- <- <-|] end; [..|exfalso; exact HN].
  all: do 2 eexists; split; [reflexivity|]; split; [get_op E|]; unfold ofZ; change (Pos.to_nat 1) with 1; change (Pos.to_nat 2) with 2; change (Pos.to_nat 4) with 4; simp; close.
Qed.
Theorem C68_occupation_names k s up dn a qs :
  In k [Electron; TJ] -> In (s, up, dn) [("0", 0, 0); ("Emp", 0, 0); ("+", 1, 0); ("Up", 1, 0); ("-", 0, 1); ("Dn", 0, 1); ("S", 1, 1); ("UpDn", 1, 1)] -> states k a = Ok qs ->
  (k = TJ /\ up + dn = 2 /\ state k s = Err) \/
  exists n Nup Ndn, state k s = Ok n /\ operator k a "Nup" Nup /\ operator k a "Ndn" Ndn /\ Nup n n = N up /\ Ndn n n = N dn.
Proof.
  unfold operator. intros HK HN E. cbn [In] in HN. destruct HK as [<-|[<-|[]]]; repeat match goal with H : _ \/ _ |- _ => destruct H as [H|H]; [injection H as <- <- <-|] end; try (exfalso; exact HN).
  all: first [left; split; [reflexivity|split; reflexivity]|right; do 3 eexists; split; [reflexivity|]; split; [get_op E|]; split; [get_op E|]; split; simp; close].
Qed.
Theorem C68_custom_state D z n : state (CustomSpin D) (str z) = Ok n <-> n <= D /\ (z = 2 * Z.of_nat n - Z.of_nat D)%Z.
Proof.
  cbn [state]. rewrite find_state_ok. split.
  - intros (H1 & H2 & _). apply str_inj in H2. split; [lia|now symmetry].
  - intros (H1 & ->). repeat split; [lia|lia|]. intros j Hj E. apply str_inj in E. lia.
Qed.
Theorem C68_boson_state M z n : (state (Boson M) (str z) = Ok n <-> n <= M /\ z = Z.of_nat n) /\ state (Boson M) "Emp" = Ok 0.
Proof.
  assert (NE : forall z, str z <> "Emp"). { intros y E. unfold str in E. apply (f_equal NilEmpty.int_of_string) in E. rewrite NilEmpty.isi in E. discriminate. }
  split.
  - cbn [state]. destruct (find_state (fun n => str (Z.of_nat n)) (str z) (1 + M) 0) as [m| |] eqn:F.
    + split.
      * intros [= <-]. apply find_state_ok in F. destruct F as (H1 & H2 & _). apply str_inj in H2. split; [lia|now symmetry].
      * intros (H1 & ->). apply find_state_ok in F. destruct F as (H2 & H3 & _). apply str_inj in H3. f_equal. lia.
    + destruct (String.eqb_spec (str z) "Emp") as [Q|_]; [exfalso; exact (NE _ Q)|]. split; [discriminate|]. intros (H1 & ->). exfalso.
      assert (W : find_state (fun n => str (Z.of_nat n)) (str (Z.of_nat n)) (1 + M) 0 = Ok n); [|congruence].
      apply find_state_ok. repeat split; [lia|lia|]. intros j Hj E. apply str_inj in E. lia.
    + exfalso. exact (find_state_res _ _ _ _ F).
  - cbn [state]. destruct (find_state (fun n => str (Z.of_nat n)) "Emp" (1 + M) 0) as [m| |] eqn:F; [|reflexivity|exfalso; exact (find_state_res _ _ _ _ F)].
    apply find_state_ok in F. destruct F as (_ & F & _). exfalso. exact (NE _ F).
Qed.
(** The quantum number Sz of a state is twice its Sz; the number of particles of a state is its N. *)
Theorem C68_quantum_number_sz k a qs Sz : match k with Boson _ | Fermion _ | Z3 => False | _ => True end ->
  states k a = Ok (Some qs) -> conserves a "ConserveSz" = true -> operator k a "Sz" Sz ->
  forall n, n < dim k -> exists v rest, nth n qs [] = (v, 1%Z) :: rest /\ tmul (N 2) (Sz n n) = ofZ t0 t1 tadd topp v.
Proof.
  unfold operator, conserves. intros HK E CS O n Hn. destruct k; try (exfalso; exact HK); clear HK.
  4: { assert (O' : op (CustomSpin D) a "Sz" = Ok (inl (entry t0 t1 tadd tmul tsub topp tinv rt "Sz" D))) by (pose proof E as E2; custom E2 D 0%Z).
       rewrite O' in O. injection O as <-. cbn [states] in E. rewrite CS in E. destruct (D <? 1); [discriminate|]. destruct (getBool a "ConserveQNs" true); [|discriminate]. injection E as <-.
       cbn [dim] in Hn. exists (2 * Z.of_nat n - Z.of_nat D)%Z, []. split.
       - rewrite (nth_indep _ [] ((fun n => [(2 * Z.of_nat n - Z.of_nat D, 1)%Z]) 0)) by (rewrite map_length, seq_length; exact Hn). rewrite (map_nth (fun n => [(2 * Z.of_nat n - Z.of_nat D, 1)%Z])), seq_nth by exact Hn. reflexivity.
       - replace (2 * Z.of_nat n - Z.of_nat D)%Z with (Z.of_nat (2 * n) - Z.of_nat D)%Z by lia. rewrite (ofZ_sub t0 t1 tadd tmul tsub topp tdiv tinv tconj rt tg SN), (N_mul t0 t1 tadd tmul tsub topp tdiv tinv tconj rt tg SN).
         rewrite (sz_entry t0 t1 tadd tmul tsub topp tdiv tinv tconj rt tg SN) by exact Hn. rewrite Nat.eqb_refl. unfold StSpec.half. cbn [ofN]. field. exact E11. }
  all: assert (O' := O); erewrite op_tab in O'; [|exact E|reflexivity|reflexivity|reflexivity|]; [|with_sz E CS; reflexivity]; injection O' as <-; clear O.
  all: with_sz E CS; cbn [dim] in Hn.
  all: repeat (destruct n as [|n]; [do 2 eexists; split; [reflexivity|]; unfold ofZ; change (Pos.to_nat 1) with 1; change (Pos.to_nat 2) with 2; change (Pos.to_nat 4) with 4; simp; close|]); exfalso; clear -Hn; lia.
Qed.
Theorem C68_quantum_number_particles k cons opn a qs M : In (cons, opn) (match k with Boson _ => [("ConserveNb", "N")] | Fermion _ => [("ConserveNf", "N")] | Electron | TJ => [("ConserveNf", "Ntot")] | _ => [] end) ->
  states k a = Ok (Some qs) -> conserves a cons = true -> operator k a opn M ->
  forall n, n < dim k -> exists rest v m, nth n qs [] = (rest ++ [(v, m)])%list /\ Z.abs m = 1%Z /\ M n n = ofZ t0 t1 tadd topp v.
Proof.
  unfold operator, conserves. intros HK E CS O n Hn. destruct k; try (exfalso; exact HK); destruct HK as [[= <- <-]|[]].
  1: { assert (O' : op (Boson M0) a "N" = Ok (inl (bentry t0 t1 tadd rt "N" M0))) by (pose proof E as E2; bos E2 M0 0%Z).
       rewrite O' in O. injection O as <-. cbn [states] in E. rewrite CS in E. destruct (getBool a "ConserveQNs" true); [|discriminate]. injection E as <-.
       cbn [dim] in Hn. exists [], (Z.of_nat n), 1%Z. split; [|split; [reflexivity|]].
       - cbn [app]. change (nth n (map (fun n => [(Z.of_nat n, 1%Z)]) (seq 0 (1 + M0))) [] = [(Z.of_nat n, 1%Z)]).
         rewrite (nth_indep _ [] ((fun n => [(Z.of_nat n, 1)%Z]) 0)) by (rewrite map_length, seq_length; exact Hn). rewrite (map_nth (fun n => [(Z.of_nat n, 1)%Z])), seq_nth by exact Hn. reflexivity.
       - replace (Z.of_nat n)%Z with (Z.of_nat n - Z.of_nat 0)%Z by lia. rewrite (ofZ_sub t0 t1 tadd tmul tsub topp tdiv tinv tconj rt tg SN).
         rewrite n_entry by exact Hn. rewrite Nat.eqb_refl. cbn [ofN]. ring. }
  all: assert (O' := O); erewrite op_tab in O'; [|exact E|reflexivity|reflexivity|reflexivity|]; [|by_states E; reflexivity]; injection O' as <-; clear O.
  all: let E' := fresh in pose proof E as E'; cbn [states] in E'; rewrite CS in E'; rewrite ?orb_true_r in E'; cbn [andb orb negb] in E'.
  all: repeat match goal with H : context [if ?b then _ else _] |- _ => match type of H with _ = Ok _ => destruct b end end.
  all: match goal with H : Ok _ = Ok (Some _) |- _ => try discriminate H; injection H as <- end; cbn [dim] in Hn.
  all: repeat (destruct n as [|n]; [first [eexists [], _, _; split; [reflexivity|split; [reflexivity|]]|eexists [_], _, _; split; [reflexivity|split; [reflexivity|]]]; unfold ofZ; change (Pos.to_nat 1) with 1; change (Pos.to_nat 2) with 2; simp; close|]); exfalso; clear -Hn; lia.
Qed.
(** Other names of the same operators. *)
Theorem C68_aliases k a x y : In (x, y) (match k with SpinHalf | SpinOne | SpinTwo => [("Sp", "S+"); ("Sm", "S-")] | TJ => [("Sp", "S+"); ("Sm", "S-"); ("FermiPhase", "F")]
    | Electron => [("FermiPhase", "F")] | Fermion _ => [("FermiPhase", "F"); ("n", "N")] | Boson _ => [("n", "N")] | _ => [] end) ->
  forall M, operator k a x M <-> operator k a y M.
Proof.
  unfold operator, StModel.op. intros H M. destruct (states k a) as [qs| |] eqn:E; cbn [obind]; [|split; discriminate..].
  destruct k; cbn [In] in H; repeat match goal with H : _ \/ _ |- _ => destruct H as [H|H]; [injection H as <- <-|] end; try (exfalso; exact H); try reflexivity.
  all: by_states E; reflexivity.
Qed.
(** Every operator has one flux: its elements between states whose quantum numbers differ by anything else are 0. *)
Theorem C68_flux k a qs name M : states k a = Ok (Some qs) -> operator k a name M ->
  exists f, forall before after, before < dim k -> after < dim k -> elt_flux qs before after <> f -> M after before = t0.
Proof. intros E O. eapply op_uniform'; eassumption. Qed.
(** "A*B" is the product, B acting first; the names nest to the right. *)
Theorem C68_product k a x y A B : ~ In "*"%char (list_ascii_of_string x) -> operator k a x A -> operator k a y B ->
  operator k a (x ++ "*" ++ y) (mmul (dim k) A B).
Proof.
  unfold operator. intros NS OA OB. apply op_star; try assumption. clear OA OB. induction x as [|c x IH]; [reflexivity|].
  cbn [list_ascii_of_string In] in NS. cbn [SiteOpsModel.split_star]. destruct (Ascii.eqb_spec c "*"%char) as [->|D]; [exfalso; apply NS; now left|].
  rewrite IH; [reflexivity|]. intros H. apply NS. now right.
Qed.
(** "Id" is the identity on every site, and so is "F" on the sites without fermions. *)
Theorem C68_identity k a qs : states k a = Ok qs -> exists I, operator k a "Id" I /\ meq (dim k) I mone.
Proof.
  intros E. destruct (identity_ok t0 t1 k a qs E) as (I & OI & HI). exists I. split; [|exact HI]. unfold operator, StModel.op. rewrite E. exact OI.
Qed.
Theorem C68_trivial_F k a qs : match k with Fermion _ | Electron | TJ => False | _ => True end -> states k a = Ok qs -> exists I, operator k a "F" I /\ meq (dim k) I mone.
Proof.
  intros HK E. destruct (identity_ok t0 t1 k a qs E) as (I & OI & HI). exists I. split; [|exact HI]. unfold operator, StModel.op. rewrite E. cbn [obind].
  destruct k; try (exfalso; exact HK); exact OI.
Qed.
(** The projectors: by name, and by the number of the state. *)
Theorem C68_projectors k pre s a qs :
  In (k, pre, s) [(SpinHalf, "proj", "Up"); (SpinHalf, "proj", "Dn"); (SpinOne, "proj", "Up"); (SpinOne, "proj", "Z0"); (SpinOne, "proj", "Dn");
                  (SpinTwo, "proj", "Up"); (SpinTwo, "proj", "Upi"); (SpinTwo, "proj", "Z0"); (SpinTwo, "proj", "Dni"); (SpinTwo, "proj", "Dn");
                  (Z3, "Proj", "0"); (Z3, "Proj", "1"); (Z3, "Proj", "2")] \/
  (exists m, k = Fermion m /\ pre = "proj" /\ In s ["Emp"; "Occ"]) ->
  states k a = Ok qs -> exists n P, state k s = Ok n /\ operator k a (pre ++ s) P /\ meq (dim k) P (projector t0 t1 n).
Proof.
  unfold operator. intros HN E. destruct HN as [HN|(m & -> & -> & HN)].
  - cbn [In] in HN. repeat match goal with H : _ \/ _ |- _ => destruct H as [H|H]; [injection H as <- <- <-|] end; [..|exfalso; exact HN].
    all: do 2 eexists; split; [reflexivity|]; split; [get_op E|]; unfold projector; intros i j Hi Hj; cbn [dim] in Hi, Hj; first [two i Hi; two j Hj|three i Hi; three j Hj|five i Hi; five j Hj]; reflexivity.
  - destruct HN as [<-|[<-|[]]]; do 2 eexists; (split; [reflexivity|]); (split; [get_op E|]); unfold projector; intros i j Hi Hj; cbn [dim] in Hi, Hj; two i Hi; two j Hj; reflexivity.
Qed.
Theorem C68_proj k a qs n : states k a = Ok qs ->
  if (1 <=? n) && (n <=? dim k) then exists P, op_proj t0 t1 k qs n = Ok (inl P) /\ meq (dim k) P (projector t0 t1 (n - 1)) else op_proj t0 t1 k qs n = Err.
Proof.
  intros E. unfold op_proj. destruct ((1 <=? n) && (n <=? dim k)); [|reflexivity]. eexists. split.
  - rewrite (fluxes_set t0 qs [(n - 1, n - 1, t1)]); [reflexivity|]. destruct qs; reflexivity.
  - intros r c Hr Hc. reflexivity.
Qed.
End Sites.

(** * The complex numbers are such numbers *)
From Coq Require Import Reals Lra.
From Verif Require Import DavSpec DavProps GmSpec GmProps GmRealProps AexSpec AexProps.
Definition zroot (x : @cplx R) : @cplx R := zof (sqrt (fst x)).
Definition ztrig : trig (@cplx R) :=
  {| t_i := (0%R, 1%R); t_c2 := zof (cos (2 * (PI / 3))); t_s2 := zof (sin (2 * (PI / 3))); t_c4 := zof (cos (4 * (PI / 3))); t_s4 := zof (sin (4 * (PI / 3))) |}.
Lemma zofN n : ofN z0 z1 zadd n = zof (INR n).
Proof. induction n as [|n IH]; [reflexivity|]. cbn [ofN]. rewrite IH, S_INR. unfold cadd, cof, c1. cbn [fst snd]. f_equal; ring. Qed.
Theorem C68_complex_numbers : site_numbers z0 z1 zadd zmul zsub zopp zdiv zinv zconj zroot ztrig.
Proof.
  assert (FT := sc_field _ _ _ _ _ _ _ _ _ _ _ _ _ _ _ _ _ _ zscalars).
  assert (C4 : cos (4 * (PI / 3)) = cos (2 * (PI / 3))). { replace (4 * (PI / 3))%R with (- (2 * (PI / 3)) + 2 * PI)%R by field. rewrite cos_plus, cos_2PI, sin_2PI, cos_neg. ring. }
  assert (S4 : sin (4 * (PI / 3)) = (- sin (2 * (PI / 3)))%R). { replace (4 * (PI / 3))%R with (- (2 * (PI / 3)) + 2 * PI)%R by field. rewrite sin_plus, cos_2PI, sin_2PI, sin_neg. ring. }
  assert (Q3 : (sqrt 3 * sqrt 3 = 3)%R) by (apply sqrt_sqrt; lra).
  constructor.
  - exact FT.
  - intros n. rewrite zofN. intros Q. unfold cof, c0 in Q. apply (f_equal fst) in Q. cbn [fst] in Q. exact (not_0_INR (S n) ltac:(discriminate) Q).
  - split; intros; unfold cconj, cadd, cmul, c1; cbn [fst snd]; try (f_equal; ring). destruct x as [x y]. cbn [fst snd]. f_equal. ring.
  - intros n. rewrite zofN. unfold zroot, cof, cmul. cbn [fst snd]. rewrite sqrt_sqrt by apply pos_INR. f_equal; ring.
  - intros n. unfold zroot, cof, cconj. cbn [fst snd]. f_equal. ring.
  - unfold cmul, copp, c1. cbn [t_i ztrig fst snd]. f_equal; ring.
  - unfold cconj, copp. cbn [t_i ztrig fst snd]. f_equal; ring.
  - rewrite zofN. unfold cmul, copp, c1, cof. cbn [t_c2 ztrig fst snd INR]. unfold cof. cbn [fst snd]. rewrite cos_2PI3. f_equal; field.
  - cbn [t_c2 t_c4 ztrig]. now rewrite C4.
  - rewrite !zofN. unfold cmul, cof. cbn [t_s2 ztrig fst snd INR]. unfold cof. cbn [fst snd]. rewrite sin_2PI3. f_equal; [|ring]. field_simplify. replace (sqrt 3 ^ 2)%R with 3%R by (rewrite <- Q3 at 1; ring). lra.
  - cbn [t_s2 t_s4 ztrig]. rewrite S4. unfold cof, copp. cbn [fst snd]. f_equal. ring.
  - cbn [t_s2 ztrig]. unfold cof, cconj. cbn [fst snd]. f_equal. ring.
Qed.
Notation zop := (op z0 z1 zadd zmul zsub zopp zinv zroot ztrig).
Definition defaults : args := fun _ => None.
Definition no_qns : args := fun s => if String.eqb s "ConserveQNs" then Some false else None.
(** The sites made with the default arguments, and without quantum numbers, meet the hypotheses; S+ takes the second state of
    the spin 3/2 to twice the third. *)
Example C68_nonvacuous :
  states (CustomSpin 3) defaults = Ok (Some [[(-3, 1)]; [(-1, 1)]; [(1, 1)]; [(3, 1)]])%Z /\ (exists qs, states Electron defaults = Ok (Some qs)) /\
  states SpinTwo no_qns = Ok None /\ states (Boson 7) no_qns = Ok None /\
  (exists Sp, zop (CustomSpin 3) defaults "S+" = Ok (inl Sp) /\ Sp 2 1 = zof 2%R) /\
  zop SpinTwo defaults "S2" = Err /\ zop SpinHalf defaults "Sx" = Err /\ zop SpinHalf defaults "nonsense" = Err.
Proof.
  split; [reflexivity|]. split; [eexists; reflexivity|]. split; [reflexivity|]. split; [reflexivity|]. split; [|split; [reflexivity|split; reflexivity]].
  exists (entry z0 z1 zadd zmul zsub zopp zinv zroot "S+" 3). split.
  - eapply op_tab; [reflexivity|reflexivity|reflexivity|reflexivity|reflexivity].
  - rewrite (sp_entry z0 z1 zadd zmul zsub zopp zdiv zinv zconj zroot ztrig C68_complex_numbers) by lia. cbn [Nat.eqb Nat.add Nat.mul Nat.sub]. unfold zroot. rewrite zofN. unfold cof at 2. cbn [fst].
    f_equal. replace (INR 4) with (2 * 2)%R by (cbn [INR]; ring). apply sqrt_square. lra.
Qed.
Print Assumptions C68_aliases. Print Assumptions C68_spin. Print Assumptions C68_custom_spin. Print Assumptions C68_spin_xy. Print Assumptions C68_spin_squares. Print Assumptions C68_S2. Print Assumptions C68_spin_two_S2_refuted.
Print Assumptions C68_boson. Print Assumptions C68_fermion. Print Assumptions C68_electron. Print Assumptions C68_electron_parity. Print Assumptions C68_electron_spin. Print Assumptions C68_tj.
Print Assumptions C68_tj_Sx_refuted. Print Assumptions C68_z3. Print Assumptions C68_kets. Print Assumptions C68_state_names. Print Assumptions C68_occupation_names. Print Assumptions C68_custom_state.
Print Assumptions C68_boson_state. Print Assumptions C68_quantum_number_sz. Print Assumptions C68_quantum_number_particles. Print Assumptions C68_flux. Print Assumptions C68_product.
Print Assumptions C68_identity. Print Assumptions C68_trivial_F. Print Assumptions C68_projectors. Print Assumptions C68_proj. Print Assumptions C68_complex_numbers.
