(** LocalMPO of an MPS, LocalMPOSet and LocalMPO_MPS (itensor/mps/localmpo.h, localmposet.h,
    localmpo_mps.h): the projected operators dmrg uses for several Hamiltonians and for excited states.

    Simplifications: dense tensors; the links of the fixed MPS carry the tag Link, so that priming them
    makes them differ from those of psi; no boundary tensors. *)
From Coq Require Import ZArith List Bool Arith.
From Verif Require Import Util BigSum MpsModel MpsTensor LocalModel LocalSpec LocalTensor LocalMeaning LsetSpec.
Import ListNotations.
Local Open Scope outcome_scope.

Section Lset.
Context {R : Type} (r0 : R) (radd rmul : R -> R -> R) (conj : R -> R).
Notation tensor := (@tensor R).
Notation wten := (wten R).
Notation edge := (@edge R).
Notation bsum := (bsum r0 radd).
Notation csum := (csum r0 radd).
Notation "x + y" := (radd x y). Notation "x * y" := (rmul x y).

(** * LocalMPO made from an MPS *)
(** An edge tensor: (link of psi, primed link of the fixed MPS). *)
Definition oedge := nat -> nat -> R.
(** localmpo.h:533-542: PH_[ll+1] = PH_[ll]*psi(ll+1), or psi(ll+1); *= dag(prime(Psi_->A(ll+1),"Link")). *)
Definition ostepL (fs : Z -> tensor) (j : Z) (e : option oedge) (t : tensor) : oedge :=
  match e with
  | Some e => fun b B => bsum (tl (fs j)) (fun A => bsum (tp t) (fun s => bsum (tl t) (fun a => e a A * te t a s b) * conj (te (fs j) A s B)))
  | None => fun b B => bsum (tp t) (fun s => te t 0 s b * conj (te (fs j) 0 s B))
  end.
(** localmpo.h:573-582, the mirror image. *)
Definition ostepR (fs : Z -> tensor) (j : Z) (e : option oedge) (t : tensor) : oedge :=
  match e with
  | Some e => fun a A => bsum (tr (fs j)) (fun B => bsum (tp t) (fun s => bsum (tr t) (fun b => e b B * te t a s b) * conj (te (fs j) A s B)))
  | None => fun a A => bsum (tp t) (fun s => te t a s 0 * conj (te (fs j) A s 0))
  end.
(** localmpo.h:389-397: L()*dag(prime(Psi_->A(b),"Link")), and R()*dag(prime(Psi_->A(b+1),"Link")). *)
Definition oth_left (L : option oedge) (f : tensor) (a s m : nat) : R :=
  match L with None => conj (te f 0 s m) | Some l => bsum (tl f) (fun A => l a A * conj (te f A s m)) end.
Definition oth_right (Rt : option oedge) (f : tensor) (m s b : nat) : R :=
  match Rt with None => conj (te f m s 0) | Some r => bsum (tr f) (fun B => r b B * conj (te f m s B)) end.
(** localmpo.h:388-412: othr, for 2, 1 or 0 centre sites; D is the dimension of the fixed MPS's link when
    there are none. *)
Definition other (L Rt : option oedge) (fs : list tensor) (D : nat) : outcome (nat -> list nat -> nat -> R) :=
  match fs with
  | [] => match L, Rt with
          | None, None => Err
          | None, Some r => Ok (fun _ _ b => r b 0)
          | Some l, None => Ok (fun a _ _ => l a 0)
          | Some l, Some r => Ok (fun a _ b => bsum D (fun m => l a m * r b m))
          end
  | [f] => Ok (fun a c b => match Rt with
                            | None => oth_left L f a (nth 0 c 0%nat) 0
                            | Some r => bsum (tr f) (fun m => oth_left L f a (nth 0 c 0%nat) m * r b m)
                            end)
  | [f; g] => Ok (fun a c b => bsum (tr f) (fun m => oth_left L f a (nth 0 c 0%nat) m * oth_right Rt g m (nth 1 c 0%nat) b))
  | _ => Err
  end.
(** localmpo.h:384-417, product: z = (othr*phi).eltC(); phip = dag(othr)*z.  phi has [nc] centre sites, of
    dimensions [mid]; if that is not numCenter(), othr*phi has Indices left and eltC() throws. *)
Definition mps_product (s : lmpo oedge) (fs : Z -> tensor) (nc : Z) (mid : list nat) (dl D dr : nat) (phi : nat -> list nat -> nat -> R)
  : outcome (nat -> list nat -> nat -> R) :=
  let! b := position_of s in
  if negb (lnc s =? nc)%Z then Err
  else
    let! o := other (getL s) (getR s) (seg fs b (Z.to_nat (lnc s))) D in
    let z := bsum dl (fun a => csum mid (fun c => bsum dr (fun e => o a c e * phi a c e))) in
    Ok (fun a c e => conj (o a c e) * z).

(** * LocalMPOSet *)
(** localmposet.h:110-120, the constructor; every LocalMPO gets the same args, so the same NumCenter. *)
Definition set_make (n nc : Z) (wss : list (Z -> wten)) : outcome (list (lmpo edge)) :=
  if length wss =? 0 then Ok [] else
  let! s := numCenter (make n true None None 0 (n + 1)) nc in Ok (map (fun _ => s) wss).
(** localmposet.h:81-85, 98-102, 192-208: position, numCenter, shift and doWrite go to every member. *)
Fixpoint set_step (wss : list (Z -> wten)) (ss : list (lmpo edge)) (psi : Z -> tensor) (o : lact tensor) : outcome (list (lmpo edge)) :=
  match wss, ss with
  | ws :: wss', s :: ss' =>
      let! (s1, _) := lstep (stepL r0 radd rmul conj ws) (stepR r0 radd rmul conj ws) s psi o in
      let! ss1 := set_step wss' ss' psi o in
      Ok (s1 :: ss1)
  | _, _ => Ok []
  end.
(** LocalMPO::product of one member; dw is the dimension of its MPO's link to the left of the centre. *)
Definition member_product (ws : Z -> wten) (s : lmpo edge) (dl dw dr : nat) (phi : nat -> list nat -> nat -> R) : outcome (nat -> list nat -> nat -> R) :=
  let! b := position_of s in local_product r0 radd rmul (getL s) (getR s) (seg ws b (Z.to_nat (lnc s))) dl dw dr phi.
(** localmposet.h:138-150: product; front() of an empty vector is undefined. *)
Fixpoint set_more (wss : list (Z -> wten)) (ss : list (lmpo edge)) (dws : list nat) (dl dr : nat) (phi f : nat -> list nat -> nat -> R) : outcome (nat -> list nat -> nat -> R) :=
  match wss, ss, dws with
  | ws :: wss', s :: ss', dw :: dws' =>
      let! g := member_product ws s dl dw dr phi in
      set_more wss' ss' dws' dl dr phi (fun a c e => f a c e + g a c e)
  | _, _, _ => Ok f
  end.
Definition set_product (wss : list (Z -> wten)) (ss : list (lmpo edge)) (dws : list nat) (dl dr : nat) (phi : nat -> list nat -> nat -> R) : outcome (nat -> list nat -> nat -> R) :=
  match wss, ss, dws with
  | ws :: wss', s :: ss', dw :: dws' => let! f := member_product ws s dl dw dr phi in set_more wss' ss' dws' dl dr phi f
  | _, _, _ => UB
  end.
(** localop.h:368-374, expect: real(eltC(dag(phip)*phi)); [re] is the real part. *)
Context (re : R -> R).
Definition member_expect (mid : list nat) (ws : Z -> wten) (s : lmpo edge) (dl dw dr : nat) (phi : nat -> list nat -> nat -> R) : outcome R :=
  let! f := member_product ws s dl dw dr phi in
  Ok (re (bsum dl (fun a => csum mid (fun c => bsum dr (fun e => conj (f a c e) * phi a c e))))).
(** localmposet.h:152-162, the inner loop of expect. *)
Fixpoint expect_loop (mid : list nat) (wss : list (Z -> wten)) (ss : list (lmpo edge)) (dws : list nat) (dl dr : nat) (phi : nat -> list nat -> nat -> R) (ex : R) : outcome R :=
  match wss, ss, dws with
  | ws :: wss', s :: ss', dw :: dws' =>
      let! x := member_expect mid ws s dl dw dr phi in expect_loop mid wss' ss' dws' dl dr phi (ex + x)
  | _, _, _ => Ok ex
  end.
(** localmposet.h:156-160: for(size_t n = 0; ...) for(auto n : range(lmpo_.size())) ex_ += ...: two nested loops. *)
Fixpoint expect_outer (times : nat) (mid : list nat) (wss : list (Z -> wten)) (ss : list (lmpo edge)) (dws : list nat) (dl dr : nat) (phi : nat -> list nat -> nat -> R) (ex : R) : outcome R :=
  match times with
  | O => Ok ex
  | S k => let! x := expect_loop mid wss ss dws dl dr phi ex in expect_outer k mid wss ss dws dl dr phi x
  end.
Definition set_expect (mid : list nat) (wss : list (Z -> wten)) (ss : list (lmpo edge)) (dws : list nat) (dl dr : nat) (phi : nat -> list nat -> nat -> R) : outcome R :=
  expect_outer (length ss) mid wss ss dws dl dr phi r0.

(** * LocalMPO_MPS *)
(** localmpo_mps.h:24-34: lmpo_ and lmps_. *)
Record pens := mkPens { ham : lmpo edge; pen : list (lmpo oedge) }.
(** localmpo_mps.h:90-104: the args, and with them NumCenter, do not reach lmpo_. *)
Definition pen_make (n : Z) (nc : option Z) (fss : list (Z -> tensor)) : outcome pens :=
  let one := make n false None None 0 (n + 1) in
  let h := make n true None None 0 (n + 1) in
  match nc, fss with
  | Some v, _ :: _ => let! s := numCenter one v in Ok (mkPens h (map (fun _ => s) fss))
  | _, _ => Ok (mkPens h (map (fun _ => one) fss))
  end.
(** localmpo_mps.h:150-157, position. *)
Fixpoint pens_position (fss : list (Z -> tensor)) (ms : list (lmpo oedge)) (psi : Z -> tensor) (b : Z) : outcome (list (lmpo oedge)) :=
  match fss, ms with
  | fs :: fss', m :: ms' =>
      let! m1 := position (ostepL fs) (ostepR fs) psi m b in
      let! ms1 := pens_position fss' ms' psi b in Ok (m1 :: ms1)
  | _, _ => Ok []
  end.
Definition pen_position (ws : Z -> wten) (fss : list (Z -> tensor)) (s : pens) (psi : Z -> tensor) (b : Z) : outcome pens :=
  let! h := position (stepL r0 radd rmul conj ws) (stepR r0 radd rmul conj ws) psi (ham s) b in
  let! ms := pens_position fss (pen s) psi b in Ok (mkPens h ms).
(** localmpo_mps.h:83-86: doWrite goes to lmpo_ only. *)
Definition pen_write (s : pens) : outcome pens := let! h := doWrite (ham s) true in Ok (mkPens h (pen s)).
(** localmpo_mps.h:134-148, product: outer *= weight_; phip += outer. *)
Fixpoint pen_more (weight : R) (fss : list (Z -> tensor)) (ms : list (lmpo oedge)) (nc : Z) (mid : list nat) (dl dr : nat) (phi f : nat -> list nat -> nat -> R) : outcome (nat -> list nat -> nat -> R) :=
  match fss, ms with
  | fs :: fss', m :: ms' =>
      let! g := mps_product m fs nc mid dl 1 dr phi in
      pen_more weight fss' ms' nc mid dl dr phi (fun a c e => f a c e + g a c e * weight)
  | _, _ => Ok f
  end.
Definition pen_product (weight : R) (ws : Z -> wten) (fss : list (Z -> tensor)) (s : pens) (mid : list nat) (dl dw dr : nat) (phi : nat -> list nat -> nat -> R) : outcome (nat -> list nat -> nat -> R) :=
  let! f := member_product ws (ham s) dl dw dr phi in
  pen_more weight fss (pen s) (lnc (ham s)) mid dl dr phi f.
(** localmpo_mps.h:60-61: expect is that of lmpo_. *)
Definition pen_expect (ws : Z -> wten) (s : pens) (mid : list nat) (dl dw dr : nat) (phi : nat -> list nat -> nat -> R) : outcome R :=
  member_expect mid ws (ham s) dl dw dr phi.
End Lset.
