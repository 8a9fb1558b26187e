(** What an input file is: entries "key = value" and groups "name { entries }", with free white
    space.  Written without the reader. *)
From Coq Require Import List Bool Arith Ascii.
From Verif Require Import InputModel.
Import ListNotations.
Local Open Scope char_scope.

(** Entries with the white space the author put: [w1] before and [w2] after the = or {, [w3] after
    the end of the entry; [sep] ends a pair (newline, comma or semicolon); [tail] is other text
    after a group's closing bracket on its line. *)
Inductive entry :=
| Pair (k w1 w2 v : text) (sep : ascii) (w3 : text)
| Group (k w1 w2 : text) (es : list entry) (tail w3 : text).

Fixpoint render (e : entry) : text :=
  match e with
  | Pair k w1 w2 v sep w3 => k ++ w1 ++ "=" :: w2 ++ v ++ sep :: w3
  | Group k w1 w2 es tail w3 => k ++ w1 ++ "{" :: w2 ++ flat_map render es ++ "}" :: tail ++ newline :: w3
  end.
Definition file (es : list entry) : text := flat_map render es.

Definition key (e : entry) : text := match e with Pair k _ _ _ _ _ => k | Group k _ _ _ _ _ => k end.

(** A name: letters, digits and underscores, not starting with a digit, of at most 511 characters. *)
Definition letter (c : ascii) : bool := isalpha c || Ascii.eqb c "_".
Definition name (k : text) : Prop :=
  (exists c k', k = c :: k' /\ letter c = true /\ forall c', In c' k' -> letter c' || isdigit c' = true) /\ length k <= 511.
Definition white (w : text) : Prop := forall c, In c w -> isspace c = true.
(** Text without separators and brackets. *)
Definition plain (w : text) : Prop := forall c, In c w -> ~ In c [newline; ","; ";"; "{"; "}"].
Definition value_text (v : text) : Prop := plain v /\ match v with [] => False | c :: _ => isspace c = false end.

Inductive good : entry -> Prop :=
| good_pair k w1 w2 v sep w3 : name k -> white w1 -> plain w1 -> white w2 -> plain w2 -> value_text v ->
    In sep [newline; ","; ";"] -> white w3 -> good (Pair k w1 w2 v sep w3)
| good_group k w1 w2 es tail w3 : name k -> white w1 -> white w2 -> Forall good es -> plain tail -> white w3 ->
    good (Group k w1 w2 es tail w3).
(** The entry ends with its line. *)
Definition own_line (e : entry) : Prop := match e with Pair _ _ _ _ sep _ => sep = newline | _ => True end.

(** The loop ends with the result r. *)
Definition ends {A : Type} (F : nat -> option A) (r : A) : Prop := exists n, forall m, n <= m -> F m = Some r.
