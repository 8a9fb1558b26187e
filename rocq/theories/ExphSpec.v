(** What the operator of toExpH is: a sum over sets of terms that do not overlap. *)
From Coq Require Import List Arith Bool String.
From Verif Require Import Util AutoMpoModel AutoMpoSpec.
Import ListNotations.

(** All sublists of a list. *)
Fixpoint sublists {X} (l : list X) : list (list X) :=
  match l with [] => [[]] | x :: l' => sublists l' ++ map (cons x) (sublists l') end.

Section Spec.
Context {R : Type} (r0 r1 : R) (radd rmul : R -> R -> R) (ropp : R -> R).
Notation hterm := (@hterm R).
Definition first_site (h : hterm) : nat := st_i (hd (ST "" 0) (ht_ops h)).
Definition last_site (h : hterm) : nat := st_i (last (ht_ops h) (ST "" 0)).
(** Two terms are apart if no site lies between the ends of both. *)
Definition apart (g h : hterm) : bool := Nat.ltb (last_site g) (first_site h) || Nat.ltb (last_site h) (first_site g).
Fixpoint all_apart (S : list hterm) : bool :=
  match S with [] => true | h :: S' => forallb (apart h) S' && all_apart S' end.
(** The operator that terms which are apart put on site n: that of the term n belongs to,
    otherwise the identity. *)
Definition layer (S : list hterm) (n : nat) : string :=
  match find (fun h => Nat.leb (first_site h) n && Nat.leb n (last_site h)) S with
  | Some h => placed (ht_ops h) n
  | None => "Id"
  end.
Definition rpow (x : R) (k : nat) : R := Nat.iter k (rmul x) r1.
Definition coefs (S : list hterm) : R := fold_right rmul r1 (map ht_coef S).
(** The matrix element of the product of the terms of S, without their coefficients. *)
Definition together (val : nat -> string -> R) (N : nat) (S : list hterm) : R :=
  fold_right rmul r1 (map (fun n => val n (layer S n)) (seq 1 N)).
(** Sum over the sets of at least m terms that are apart from each other, of x^(size - m) times
    the coefficients times the product. *)
Definition cluster_sum (m : nat) (x : R) (val : nat -> string -> R) (N : nat) (terms : list hterm) : R :=
  fold_right radd r0 (map (fun S => if all_apart S && Nat.leb m (List.length S)
    then rmul (rmul (rpow x (List.length S - m)) (coefs S)) (together val N S) else r0) (sublists terms)).
(** The matrix element of the identity. *)
Definition identity_value (val : nat -> string -> R) (N : nat) : R :=
  fold_right rmul r1 (map (fun n => val n "Id"%string) (seq 1 N)).
End Spec.
