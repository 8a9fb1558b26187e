(** Model of combiner tensors on dense tensors: itensor/itdata/combiner.cc (combine, doTask(Contract)),
    itensor/itensor.cc (combiner).  Same conventions as DenseModel.v. *)
From Coq Require Import List ZArith Lia Bool Arith.
From Verif Require Import Util RangeModel TensorModel ContractModel DenseModel.
Import ListNotations.
Open Scope outcome_scope.

Section Combiner.
Context {R : Type} {I : Type} (ieq : I -> I -> bool) (idim : I -> nat).

(** combiner (itensor.cc:1473-1486), without QNs: the dimension rm of the new index is the product of
    the dimensions; no index is an error. *)
Fixpoint prod_loop (is : list I) (rm : nat) : nat :=
  match is with [] => rm | i :: is' => prod_loop is' (rm * idim i) end.
Definition combiner_dim (is : list I) : outcome nat := match is with [] => Err | _ => Ok (prod_loop is 1) end.

(** combiner.cc:72-81: the index at position jc is replaced by the combined ones. *)
Fixpoint replace_at (j jc : nat) (dis cs : list I) : list I :=
  match dis with
  | [] => []
  | x :: dis' => if j =? jc then cs ++ replace_at (S j) jc dis' cs else x :: replace_at (S j) jc dis' cs
  end.

(** combiner.cc:98-106: are Cis[2],Cis[3],... next to Cis[1] and in the same order? *)
Fixpoint contig_loop (ds cs : list I) : bool :=
  match cs with
  | [] => true
  | c :: cs' => match ds with [] => false | x :: ds' => if ieq x c then contig_loop ds' cs' else false end
  end.

(** combiner.cc:128-140: the combined indices go to the front; None is the mark -1. *)
Fixpoint place (dis cs : list I) (ni : nat) (P : list (option nat)) : outcome (list (option nat) * nat) :=
  match cs with
  | [] => Ok (P, ni)
  | c :: cs' => match find_pos ieq c dis with
                | None => Err
                | Some j => let! P' := oupd j (Some ni) P in place dis cs' (S ni) P'
                end
  end.
(** combiner.cc:145-150: the others follow in their order. *)
Fixpoint rest (ds : list I) (P : list (option nat)) (ni : nat) : perm * list I :=
  match ds, P with
  | x :: ds', None :: P' => let (p, n) := rest ds' P' (S ni) in (ni :: p, x :: n)
  | _ :: ds', Some k :: P' => let (p, n) := rest ds' P' ni in (k :: p, n)
  | _, _ => ([], [])
  end.

(** combine (combiner.cc:55-155) with permuteStore (43-53), whose new storage starts with arbitrary
    contents [junk].  Result: new indices and storage.  cind is Cis[0], cs are the other ones. *)
Definition combine (dis : list I) (d : list R) (cind : I) (cs : list I) (junk : nat -> R) : outcome (list I * list R) :=
  match find_pos ieq cind dis with
  | Some jc => Ok (replace_at 0 jc dis cs, d)
  | None =>
      match cs with
      | [] => UB
      | c1 :: cs' =>
          match find_pos ieq c1 dis with
          | None => Err
          | Some J1 =>
              if contig_loop (skipn (J1 + 1) dis) cs'
              then Ok (firstn J1 dis ++ [cind] ++ skipn (J1 + length cs) dis, d)
              else
                let! (P, ni) := place dis cs 0 (repeat None (length dis)) in
                let (p, n) := rest dis P ni in
                let! v := permuteRange (irange idim dis) p in
                let r := range_init (map ext v) in
                let! d' := tassign v d r (map junk (seq 0 (dim r))) in
                Ok (cind :: n, d')
          end
      end
  end.

(** operator* of a tensor and a combiner, in either order (itensor.cc:926-981, combiner.cc:157-180):
    DEBUG builds also check the result for repeated indices (itensor.cc:973-976).
    Both operands have at least one index. *)
Fixpoint has_dup (is : list I) : bool :=
  match is with [] => false | x :: is' => existsb (ieq x) is' || has_dup is' end.
Definition times_combiner (debug : bool) (dis : list I) (d : list R) (cind : I) (cs : list I) (junk : nat -> R)
  : outcome (list I * list R) :=
  let! (N, d') := combine dis d cind cs junk in
  if debug && has_dup N then Err else Ok (N, d').
End Combiner.
