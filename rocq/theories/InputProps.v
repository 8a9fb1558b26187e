(** C47: reading input files.  Vocabulary: InputSpec.v; the model is InputModel.v. *)
From Coq Require Import List ZArith Lia Bool Arith Ascii String.
From Verif Require Import Util InputModel InputSpec InputProofs.
Import ListNotations.
Local Open Scope char_scope.
Local Arguments Nat.sub : simpl never.
Notation length := List.length.

(** ** found and not found *)
(** The group is found if a file has one of this name at the start of a line, after entries with other
    names: the reader stands behind its opening bracket. *)
Theorem C47_group_found junk w0 pre nm w1 w2 es tail w3 post :
  white w0 -> Forall good pre -> Forall own_line pre -> Forall (fun e => key e <> nm) pre ->
  good (Group nm w1 w2 es tail w3) ->
  ends (fun f => GotoGroup f junk [nm] (w0 ++ file (pre ++ Group nm w1 w2 es tail w3 :: post)))
    (Ok (true, file es ++ "}" :: tail ++ newline :: w3 ++ file post)).
Proof.
  intros W0 G OL NK GG. inversion GG as [|? ? ? ? ? ? N W1 W2 GE PT W3]; subst.
  assert (H : ends (fun f => group_loop f junk nm (eatwhite (w0 ++ file (pre ++ Group nm w1 w2 es tail w3 :: post)))) (Ok (true, file es ++ "}" :: tail ++ newline :: w3 ++ file post))).
  { rewrite eat_white by auto. unfold file at 1. rewrite flat_map_app. fold (file pre).
    apply group_passes; auto; [now apply not_name_brace|]. cbn [flat_map]. rewrite eat_entry by auto.
    apply ends_now. intros n. cbn [render]. repeat (rewrite <- !app_assoc; cbn [app]).
    destruct (next_char w1 "{" (w2 ++ flat_map render es ++ "}" :: tail ++ newline :: w3 ++ flat_map render post) W1 eq_refl eq_refl) as (c & s' & Es & L & D).
    cbn [group_loop]. rewrite Es, token_name, text_eqb_refl by auto. rewrite <- Es, eat_white by auto. rewrite eat_char by reflexivity.
    replace (Ascii.eqb "{" "{") with true by reflexivity. rewrite eat_white by auto. do 3 f_equal.
    destruct es as [|e es]; [reflexivity|]. inversion GE; subst. unfold file. cbn [flat_map]. rewrite <- !app_assoc. now apply eat_entry. }
  destruct H as [n H]. exists n. intros m Hm. cbn [GotoGroup]. now rewrite H.
Qed.

(** A group inside a found group is found in the same way. *)
Theorem C47_nested_found junk w0 pre nm w1 w2 es1 nm2 v1 v2 es v3 v4 es2 tail w3 post :
  white w0 -> Forall good pre -> Forall own_line pre -> Forall (fun e => key e <> nm) pre ->
  good (Group nm w1 w2 (es1 ++ Group nm2 v1 v2 es v3 v4 :: es2) tail w3) ->
  Forall own_line es1 -> Forall (fun e => key e <> nm2) es1 ->
  ends (fun f => GotoGroup f junk [nm; nm2] (w0 ++ file (pre ++ Group nm w1 w2 (es1 ++ Group nm2 v1 v2 es v3 v4 :: es2) tail w3 :: post)))
    (Ok (true, file es ++ "}" :: v3 ++ newline :: v4 ++ file es2 ++ "}" :: tail ++ newline :: w3 ++ file post)).
Proof.
  intros W0 G OL NK GG OL1 NK1. destruct (C47_group_found junk w0 pre nm w1 w2 _ tail w3 post W0 G OL NK GG) as [n1 H1].
  inversion GG as [|? ? ? ? ? ? N W1 W2 GE PT W3]; subst. apply Forall_app in GE. destruct GE as [GE1 GE2]. inversion GE2 as [|? ? GG2 GE3]; subst.
  inversion GG2 as [|? ? ? ? ? ? N2 V1 V2 GE4 PT2 V4]; subst.
  assert (H : ends (fun f => group_loop f junk nm2 (eatwhite (file (es1 ++ Group nm2 v1 v2 es v3 v4 :: es2) ++ "}" :: tail ++ newline :: w3 ++ file post)))
    (Ok (true, file es ++ "}" :: v3 ++ newline :: v4 ++ file es2 ++ "}" :: tail ++ newline :: w3 ++ file post))).
  { unfold file at 1. rewrite flat_map_app, <- app_assoc. fold (file es1).
    apply group_passes; auto; [now apply not_name_brace|]. cbn [flat_map]. rewrite <- app_assoc. rewrite eat_entry by auto.
    apply ends_now. intros n. cbn [render]. repeat (rewrite <- !app_assoc; cbn [app]).
    set (q := flat_map render es2 ++ "}" :: tail ++ newline :: w3 ++ file post).
    destruct (next_char v1 "{" (v2 ++ flat_map render es ++ "}" :: v3 ++ newline :: v4 ++ q) V1 eq_refl eq_refl) as (c & s' & Es & L & D).
    cbn [group_loop]. rewrite Es, token_name, text_eqb_refl by auto. rewrite <- Es, eat_white by auto. rewrite eat_char by reflexivity.
    replace (Ascii.eqb "{" "{") with true by reflexivity. rewrite eat_white by auto. do 3 f_equal.
    destruct es as [|e es]; [reflexivity|]. inversion GE4; subst. unfold file. cbn [flat_map]. rewrite <- !app_assoc. now apply eat_entry. }
  destruct H as [n2 H2]. exists (S (max n1 n2)). intros m Hm. specialize (H1 m ltac:(lia)). cbn [GotoGroup] in *.
  destruct (group_loop m junk nm _) as [[[b s]| |]|]; try discriminate. injection H1 as -> ->. now rewrite H2 by lia.
Qed.

(** No group of this name: the search says so. *)
Theorem C47_group_absent junk w0 es nm : white w0 -> Forall good es -> Forall own_line es ->
  Forall (fun e => key e <> nm) es -> name nm ->
  ends (fun f => GotoGroup f junk [nm] (w0 ++ file es)) (Ok (false, [])).
Proof.
  intros W0 G OL NK N.
  assert (H : ends (fun f => group_loop f junk nm (eatwhite (w0 ++ file es))) (Ok (false, []))).
  { rewrite eat_white by auto. rewrite <- (app_nil_r (file es)). apply group_passes; auto; [now apply not_name_brace|]. apply ends_now. reflexivity. }
  destruct H as [n H]. exists n. intros m Hm. cbn [GotoGroup]. now rewrite H.
Qed.

(** In a found group, a key is found behind any other entries, whatever separates them; the reader
    stands before the value. *)
Theorem C47_key_found junk path s0 es1 k w1 w2 v sep w3 es2 rest :
  ends (fun f => GotoGroup f junk path s0) (Ok (true, file (es1 ++ Pair k w1 w2 v sep w3 :: es2) ++ "}" :: rest)) ->
  Forall good es1 -> Forall (fun e => key e <> k) es1 -> good (Pair k w1 w2 v sep w3) ->
  ends (fun f => GotoToken f junk path k s0) (Ok (true, v ++ sep :: w3 ++ file es2 ++ "}" :: rest)).
Proof.
  intros [n1 H1] G NK GP. inversion GP as [? ? ? ? ? ? N W1 P1 W2 P2 V HS W3|]; subst.
  assert (H : ends (fun f => token_search f k (eatwhite (file es1 ++ render (Pair k w1 w2 v sep w3) ++ file es2 ++ "}" :: rest))) (Ok (true, v ++ sep :: w3 ++ file es2 ++ "}" :: rest))).
  { apply token_passes; auto; [now apply not_name_brace|]. rewrite eat_entry by auto. apply ends_now. intros n. cbn [render]. repeat (rewrite <- !app_assoc; cbn [app]).
    destruct (next_char w1 "=" (w2 ++ v ++ sep :: w3 ++ file es2 ++ "}" :: rest) W1 eq_refl eq_refl) as (c & s' & Es & L & D).
    cbn [token_search]. rewrite Es, token_name, text_eqb_refl by auto. rewrite (ceqb_neq _ _ (proj2 (front_name k N))). rewrite <- Es, eat_white by auto. rewrite eat_char by reflexivity.
    replace (Ascii.eqb "=" "=") with true by reflexivity. rewrite eat_white by auto. destruct V as [_ V]. destruct v as [|c0 v]; [destruct V|].
    cbn [app]. now rewrite eat_char. }
  destruct H as [n2 H2]. exists (max n1 n2). intros m Hm. unfold GotoToken. rewrite H1 by lia.
  rewrite <- H2 with (m := m) by lia. f_equal. unfold file at 1. rewrite flat_map_app, <- app_assoc. cbn [flat_map]. rewrite <- app_assoc.
  fold (file es1) (file es2). destruct es1 as [|e es1]; [cbn [file flat_map app]; now rewrite eat_entry|]. inversion G; subst. cbn [file flat_map]. rewrite <- app_assoc. now rewrite eat_entry.
Qed.
(** A key that is not in the group is reported absent. *)
Theorem C47_key_absent junk path s0 es k rest :
  ends (fun f => GotoGroup f junk path s0) (Ok (true, file es ++ "}" :: rest)) ->
  Forall good es -> Forall (fun e => key e <> k) es -> name k ->
  ends (fun f => GotoToken f junk path k s0) (Ok (false, rest)).
Proof.
  intros [n1 H1] G NK N.
  assert (H : ends (fun f => token_search f k (eatwhite (file es ++ "}" :: rest))) (Ok (false, rest))).
  { apply token_passes; auto; [now apply not_name_brace|]. apply ends_now. reflexivity. }
  destruct H as [n2 H2]. exists (max n1 n2). intros m Hm. unfold GotoToken. rewrite H1 by lia. rewrite <- H2 with (m := m) by lia. f_equal.
  destruct es as [|e es1]; [reflexivity|]. inversion G; subst. cbn [file flat_map]. rewrite <- app_assoc. now rewrite eat_entry.
Qed.

(** ** values *)
Lemma ends_get {A} (rd : text -> option A) F r : ends F r ->
  ends (fun f => get rd (F f)) (match r with Ok (true, s) => Ok (rd s) | Ok (false, _) => Ok None | Err => Err | UB => UB end).
Proof. intros [n H]. exists n. intros m Hm. unfold get. rewrite H by auto. destruct r as [[[] ?]| |]; reflexivity. Qed.

Lemma word_white v c s : (forall x, In x v -> isspace x = false) -> isspace c = true -> word (v ++ c :: s) = v.
Proof.
  intros H E. induction v as [|x v IH]; cbn [app word]; [now rewrite E|]. rewrite (H x) by now left. f_equal. apply IH. intros; apply H; now right.
Qed.
(** A value that is one word ended by white space is read whole by GetString. *)
Theorem C47_string v c s : v <> [] -> (forall x, In x v -> isspace x = false) -> isspace c = true -> read_string (v ++ c :: s) = Some v.
Proof.
  intros Ne H E. unfold read_string. destruct v as [|x v]; [congruence|]. cbn [app]. rewrite eat_char by (apply H; now left).
  change (x :: v ++ c :: s) with ((x :: v) ++ c :: s). rewrite word_white; auto.
Qed.

(** Decimal notation. *)
Definition digit_of (d : nat) : ascii := ascii_of_nat (48 + d).
Fixpoint dec_fuel (f n : nat) : text := match f with 0 => [] | S f => if (n <? 10)%nat then [digit_of n] else dec_fuel f (n / 10) ++ [digit_of (n mod 10)] end.
Definition dec (n : nat) : text := dec_fuel (S n) n.
Definition show (z : Z) : text := if (z <? 0)%Z then "-" :: dec (Z.to_nat (- z)) else dec (Z.to_nat z).

Lemma digit_of_ok d : d < 10 -> isdigit (digit_of d) = true /\ code (digit_of d) = 48 + d /\ digit_of d <> "-" /\ digit_of d <> "+" /\ isspace (digit_of d) = false.
Proof. intros H. do 10 (destruct d as [|d]; [vm_compute; repeat split; intros; congruence|]). lia. Qed.
Lemma decimal_app a b : decimal (a ++ [b]) = (10 * decimal a + Z.of_nat (code b - 48))%Z.
Proof. unfold decimal. now rewrite fold_left_app. Qed.
Lemma dec_ok f : forall n, n < f -> (forall c, In c (dec_fuel f n) -> exists d, d < 10 /\ c = digit_of d) /\ decimal (dec_fuel f n) = Z.of_nat n /\ dec_fuel f n <> [].
Proof.
  induction f as [|f IH]; intros n Hn; [lia|]. cbn [dec_fuel]. destruct (Nat.ltb_spec n 10) as [L|L].
  - split; [|split]; [intros c [<-|[]]; eauto| |discriminate]. unfold decimal. cbn [fold_left]. destruct (digit_of_ok n L) as (_ & -> & _). lia.
  - assert (n / 10 < f) by (pose proof (Nat.div_lt n 10); lia). destruct (IH (n / 10) H) as (H1 & H2 & H3).
    assert (M : n mod 10 < 10) by (apply Nat.mod_upper_bound; lia). split; [|split].
    + intros c Hc. apply in_app_or in Hc. destruct Hc as [Hc|[<-|[]]]; eauto.
    + rewrite decimal_app, H2. destruct (digit_of_ok (n mod 10) M) as (_ & -> & _). pose proof (Nat.div_mod_eq n 10). lia.
    + destruct (dec_fuel f (n / 10)); discriminate.
Qed.
Lemma digits_app d c s : (forall x, In x d -> isdigit x = true) -> isdigit c = false -> digits (d ++ c :: s) = d.
Proof.
  intros H E. induction d as [|x d IH]; cbn [app digits]; [now rewrite E|]. rewrite (H x) by now left. f_equal. apply IH. intros; apply H; now right.
Qed.
(** Every int written in decimal and followed by something that is not a digit is read back. *)
Theorem C47_int z c s : (-2147483648 <= z <= 2147483647)%Z -> isdigit c = false -> read_int (show z ++ c :: s) = Some z.
Proof.
  intros Hz Hc. unfold show. set (n := if (z <? 0)%Z then Z.to_nat (- z) else Z.to_nat z).
  destruct (dec_ok (S n) n (Nat.lt_succ_diag_r n)) as (H1 & H2 & H3). fold (dec n) in *.
  assert (D : forall x, In x (dec n) -> isdigit x = true) by (intros x Hx; destruct (H1 x Hx) as (d & Hd & ->); now apply digit_of_ok).
  assert (RG : forall v, v = z -> ((-2147483648 <=? v) && (v <=? 2147483647))%Z = true).
  { intros v ->. apply andb_true_intro. split; apply Z.leb_le; lia. }
  destruct (Z.ltb_spec z 0) as [L|L].
  - fold n. cbn [app]. unfold read_int. rewrite eat_char by reflexivity. replace (Ascii.eqb "-" "-") with true by reflexivity.
    rewrite digits_app by auto. destruct (dec n) as [|x d] eqn:E; [congruence|]. cbv zeta. rewrite H2.
    assert (EV : (-1 * Z.of_nat n)%Z = z) by (unfold n; lia). rewrite (RG _ EV). now rewrite EV.
  - fold n. destruct (dec n) as [|x d] eqn:E; [congruence|]. destruct (H1 x (or_introl eq_refl)) as (dd & Hd & Ex).
    destruct (digit_of_ok dd Hd) as (Q1 & Q2 & Q3 & Q4 & Q5). rewrite <- Ex in *.
    unfold read_int. cbn [app]. rewrite eat_char by exact Q5. rewrite (ceqb_neq _ _ Q3), (ceqb_neq _ _ Q4).
    change (x :: d ++ c :: s) with ((x :: d) ++ c :: s). rewrite digits_app by auto. cbv zeta. rewrite H2.
    assert (EV : (1 * Z.of_nat n)%Z = z) by (unfold n; lia). rewrite (RG _ EV). now rewrite EV.
Qed.

(** The three together for integers: getInt returns the number written in the file, and the
    default if there is none. *)
Theorem C47_getInt junk path s0 es1 k w1 w2 z sep w3 es2 rest def :
  ends (fun f => GotoGroup f junk path s0) (Ok (true, file (es1 ++ Pair k w1 w2 (show z) sep w3 :: es2) ++ "}" :: rest)) ->
  Forall good es1 -> Forall (fun e => key e <> k) es1 -> good (Pair k w1 w2 (show z) sep w3) -> (-2147483648 <= z <= 2147483647)%Z ->
  ends (fun f => getInt f junk path k def s0) (Ok z).
Proof.
  intros H G NK GP Hz. pose proof (C47_key_found _ _ _ _ _ _ _ _ _ _ _ _ H G NK GP) as E. apply (ends_get read_int) in E.
  inversion GP as [? ? ? ? ? ? N W1 P1 W2 P2 V HS W3|]; subst.
  rewrite C47_int in E; auto. 2:{ destruct HS as [<-|[<-|[<-|[]]]]; reflexivity. }
  destruct E as [n E]. exists n. intros m Hm. unfold getInt, or_default, GetInt. now rewrite E.
Qed.
Theorem C47_getInt_default junk path s0 es k rest def :
  ends (fun f => GotoGroup f junk path s0) (Ok (true, file es ++ "}" :: rest)) ->
  Forall good es -> Forall (fun e => key e <> k) es -> name k ->
  ends (fun f => getInt f junk path k def s0) (Ok def).
Proof.
  intros H G NK N. pose proof (C47_key_absent _ _ _ _ _ _ H G NK N) as E. apply (ends_get read_int) in E.
  destruct E as [n E]. exists n. intros m Hm. unfold getInt, or_default, GetInt. now rewrite E.
Qed.

(** ** termination *)
(** Files whose last line is ended; every suffix of one is such a file. *)
Definition lines_ended (s : text) : Prop := s = [] \/ exists s', s = s' ++ [newline].
Lemma ended_tail c s : lines_ended (c :: s) -> lines_ended s.
Proof.
  intros [H|[[|x s'] H]]; [discriminate|injection H as _ ->; now left|]. injection H as _ ->. right. eauto.
Qed.
Lemma ended_suffix p s : lines_ended (p ++ s) -> lines_ended s.
Proof. induction p; auto. intros H. apply IHp. now apply (ended_tail a). Qed.
Definition suffix (s t : text) : Prop := exists p, t = p ++ s.
Lemma suffix_refl s : suffix s s. Proof. now exists []. Qed.
Lemma suffix_cons s c t : suffix s t -> suffix s (c :: t). Proof. intros [p ->]. now exists (c :: p). Qed.
Lemma suffix_trans a b c : suffix a b -> suffix b c -> suffix a c.
Proof. intros [p ->] [q ->]. exists (q ++ p). now rewrite app_assoc. Qed.
Lemma suffix_ended a b : suffix a b -> lines_ended b -> lines_ended a.
Proof. intros [p ->]. apply ended_suffix. Qed.
Lemma suffix_len a b : suffix a b -> length a <= length b.
Proof. intros [p ->]. rewrite app_length. lia. Qed.
Lemma eat_suffix s : suffix (eatwhite s) s.
Proof. induction s as [|c s IH]; cbn [eatwhite]; [apply suffix_refl|]. destruct (isspace c); [now apply suffix_cons|apply suffix_refl]. Qed.
Lemma match_last s : forall n s', 1 <= n -> matchbracket n s = Ok s' -> exists p, s = p ++ "}" :: s'.
Proof.
  induction s as [|c s IH]; intros n s' Hn; cbn [matchbracket]; [discriminate|].
  assert (Q : forall m, 1 <= m -> matchbracket m s = Ok s' -> exists p, c :: s = p ++ "}" :: s').
  { intros m Hm E. apply IH in E; auto. destruct E as [p ->]. now exists (c :: p). }
  destruct (isspace c); [now apply Q|]. cbv zeta. destruct (Nat.eqb_spec (if Ascii.eqb c "{" then S n else if Ascii.eqb c "}" then n - 1 else n) 0) as [E|E].
  - intros [= ->]. exists []. destruct (Ascii.eqb_spec c "{"); [lia|]. destruct (Ascii.eqb_spec c "}") as [->|]; [reflexivity|lia].
  - apply Q. destruct (Ascii.eqb_spec c "{"); [lia|]. destruct (Ascii.eqb_spec c "}"); lia.
Qed.
Lemma match_suffix s : forall n s', matchbracket n s = Ok s' -> suffix s' s /\ length s' < length s.
Proof.
  induction s as [|c s IH]; intros n s'; cbn [matchbracket]; [discriminate|].
  assert (Q : forall m, matchbracket m s = Ok s' -> suffix s' (c :: s) /\ length s' < length (c :: s)).
  { intros m E. apply IH in E. destruct E. split; [now apply suffix_cons|cbn [length]; lia]. }
  destruct (isspace c); [apply Q|]. cbv zeta. destruct (_ =? 0)%nat; [|apply Q].
  intros [= ->]. split; [apply suffix_cons, suffix_refl|cbn [length]; lia].
Qed.
Lemma token_suffix s : forall i acc t s', token_loop i acc s = Ok (Some (t, s')) -> suffix s' s /\ (i = 0 -> length s' < length s).
Proof.
  induction s as [|c s IH]; intros i acc t s'; cbn [token_loop]; [destruct (i =? 512)%nat; discriminate|].
  destruct (i =? 512)%nat; [discriminate|]. destruct (_ || _ || _).
  - intros E. apply IH in E. destruct E as [E _]. split; [now apply suffix_cons|]. intros _. apply suffix_len in E. cbn [length]. lia.
  - destruct (Nat.eqb_spec i 0) as [->|Hi]; intros [= <- <-].
    + split; [apply suffix_cons, suffix_refl|]. cbn [length]. lia.
    + split; [apply suffix_refl|lia].
Qed.
Lemma gettoken_suffix s t s' : gettoken s = Ok (Some (t, s')) -> suffix s' s /\ length s' < length s.
Proof.
  unfold gettoken. intros H. apply token_suffix in H. destruct H as [H1 H2]. split; [apply (suffix_trans _ _ _ H1), eat_suffix|].
  specialize (H2 eq_refl). pose proof (suffix_len _ _ (eat_suffix s)). lia.
Qed.

Lemma ended_last p c s : c <> newline -> lines_ended (p ++ c :: s) -> s <> [].
Proof.
  intros Hc [H|[q H]] ->; [now destruct p|]. apply app_inj_tail in H. destruct H. congruence.
Qed.
Lemma gettoken_more s t s' : lines_ended s -> gettoken s = Ok (Some (t, s')) -> s' <> [].
Proof.
  intros L H. unfold gettoken in H. pose proof (suffix_ended _ _ (eat_suffix s) L) as L1.
  assert (SP : match eatwhite s with [] => True | c :: _ => isspace c = false end).
  { clear. induction s as [|c s IH]; cbn [eatwhite]; auto. destruct (isspace c) eqn:E; auto. }
  assert (Q : forall u i acc, i <> 0 -> token_loop i acc u = Ok (Some (t, s')) -> s' <> []).
  { induction u as [|c u IH]; intros i acc Hi; cbn [token_loop]; destruct (i =? 512)%nat; try discriminate.
    destruct (_ || _ || _); [apply IH; lia|]. destruct (Nat.eqb_spec i 0); [lia|]. intros [= _ <-]. discriminate. }
  destruct (eatwhite s) as [|c u]; [discriminate|]. cbn [token_loop] in H. replace (0 =? 512)%nat with false in H by reflexivity.
  destruct (_ || _ || _); [now apply Q in H|]. replace (0 =? 0)%nat with true in H by reflexivity. injection H as _ ->.
  apply (ended_last [] c); auto. intros ->. discriminate.
Qed.
Lemma match_more s s' : lines_ended s -> matchbracket 1 s = Ok s' -> s' <> [] /\ lines_ended s' /\ length s' < length s.
Proof.
  intros L H. destruct (match_suffix _ _ _ H) as [S1 S2]. split; [|split; [apply (suffix_ended _ _ S1 L)|auto]].
  apply match_last in H; auto. destruct H as [p ->]. apply (ended_last p "}"); auto. discriminate.
Qed.

Lemma line_ends junk n : forall s, length s < n -> lines_ended s -> s <> [] ->
  exists r, (forall f, length s < f -> skip_line f junk s = Some r) /\ (forall s', r = Ok s' -> suffix s' s).
Proof.
  induction n as [|n IH]; intros s Hn L Ne; [lia|]. destruct s as [|c s]; [congruence|]. cbn [length] in *.
  pose proof (ended_tail _ _ L) as Ls.
  assert (Q : forall r, (forall f, length s < f -> skip_line (S f) junk (c :: s) = Some r) -> forall f, S (length s) < f -> skip_line f junk (c :: s) = Some r).
  { intros r H [|f] Hf; [lia|]. apply H. lia. }
  destruct (Ascii.eqb_spec c newline) as [->|Hc].
  - exists (Ok (eatwhite s)). split; [apply Q; reflexivity|]. intros s' [= <-]. apply suffix_cons, eat_suffix.
  - pose proof (ended_last [] c s Hc L) as Ns. destruct (Ascii.eqb_spec c "{") as [->|Hb].
    + destruct (matchbracket 1 s) as [s2| |] eqn:E.
      * destruct (match_more _ _ Ls E) as (N2 & L2 & Len). destruct (IH s2 ltac:(lia) L2 N2) as (r & H1 & H2). exists r. split.
        -- apply Q. intros f Hf. cbn [skip_line]. replace (Ascii.eqb "{" "{") with true by reflexivity. rewrite E. replace (Ascii.eqb "{" newline) with false by reflexivity. apply H1. lia.
        -- intros s' Er. apply suffix_cons. apply (suffix_trans _ s2); auto. now apply match_suffix in E.
      * exists Err. split; [|discriminate]. apply Q. intros f Hf. cbn [skip_line]. replace (Ascii.eqb "{" "{") with true by reflexivity. now rewrite E.
      * exists UB. split; [|discriminate]. apply Q. intros f Hf. cbn [skip_line]. replace (Ascii.eqb "{" "{") with true by reflexivity. now rewrite E.
    + destruct (IH s ltac:(lia) Ls Ns) as (r & H1 & H2). exists r. split; [|intros s' E; now apply suffix_cons, H2].
      apply Q. intros f Hf. cbn [skip_line]. rewrite (ceqb_neq _ _ Hb), (ceqb_neq _ _ Hc). now apply H1.
Qed.

Definition rest_in (s : text) (r : outcome (bool * text)) : Prop := forall b s', r = Ok (b, s') -> s' = [] \/ suffix s' s.
Lemma group_ends junk nm n : forall s, length s < n -> lines_ended s ->
  exists r, (forall f, length s + 2 < f -> group_loop f junk nm s = Some r) /\ rest_in s r.
Proof.
  induction n as [|n IH]; intros s Hn L; [lia|].
  assert (Q : forall r, (forall f, length s + 1 < f -> group_loop (S f) junk nm s = Some r) -> forall f, length s + 2 < f -> group_loop f junk nm s = Some r).
  { intros r H [|f] Hf; [lia|]. apply H. lia. }
  destruct (gettoken s) as [[[t s1]|]| |] eqn:E.
  2:{ exists (Ok (false, [])). split; [apply Q; intros; cbn [group_loop]; now rewrite E|]. intros b s' [= _ <-]. now left. }
  2:{ exists Err. split; [apply Q; intros; cbn [group_loop]; now rewrite E|discriminate]. }
  2:{ exists UB. split; [apply Q; intros; cbn [group_loop]; now rewrite E|discriminate]. }
  destruct (gettoken_suffix _ _ _ E) as [S1 Len1]. pose proof (suffix_ended _ _ S1 L) as L1. pose proof (gettoken_more _ _ _ L E) as N1.
  destruct (text_eqb t nm) eqn:Et.
  - set (g := fun f : nat => group_loop (S f) junk nm s). assert (G : forall f, g f = g 0) by (intros f; unfold g; cbn [group_loop]; now rewrite E, Et).
    unfold g in G at 2. cbn [group_loop] in G. rewrite E, Et in G.
    destruct (eatwhite s1) as [|c s3] eqn:Es.
    + destruct (Ascii.eqb junk "{"); [exists (Ok (true, []))|exists Err]; (split; [apply Q; intros f _; apply G|]); intros b s' [= _ <-]. now left.
    + destruct (Ascii.eqb c "{"); [exists (Ok (true, eatwhite s3))|exists Err]; (split; [apply Q; intros f _; apply G|]); intros b s' [= _ <-]. right.
      apply (suffix_trans _ s3); [apply eat_suffix|]. apply (suffix_trans _ s1); auto. apply (suffix_trans _ (c :: s3)); [apply suffix_cons, suffix_refl|]. rewrite <- Es. apply eat_suffix.
  - assert (H2 : exists o, (if Ascii.eqb (front t) "{" then matchbracket 1 s1 else Ok s1) = o /\ forall s2, o = Ok s2 -> s2 <> [] /\ lines_ended s2 /\ suffix s2 s /\ length s2 < length s).
    { eexists. split; [reflexivity|]. intros s2 H. destruct (Ascii.eqb (front t) "{"); [|injection H as <-; auto].
      destruct (match_more _ _ L1 H) as (A & B & C). split; [auto|]. split; [auto|]. split; [|lia]. apply (suffix_trans _ s1); auto. now apply match_suffix in H. }
    destruct H2 as ([s2| |] & E2 & H2).
    2:{ exists Err. split; [apply Q; intros; cbn [group_loop]; now rewrite E, Et, E2|discriminate]. }
    2:{ exists UB. split; [apply Q; intros; cbn [group_loop]; now rewrite E, Et, E2|discriminate]. }
    destruct (H2 s2 eq_refl) as (N2 & L2 & S2 & Len2). destruct (line_ends junk (S (length s2)) s2 (Nat.lt_succ_diag_r _) L2 N2) as (r & R1 & R2).
    destruct r as [s3| |].
    2:{ exists Err. split; [apply Q; intros; cbn [group_loop]; rewrite E, Et, E2, R1 by lia; reflexivity|discriminate]. }
    2:{ exists UB. split; [apply Q; intros; cbn [group_loop]; rewrite E, Et, E2, R1 by lia; reflexivity|discriminate]. }
    pose proof (suffix_trans _ _ _ (R2 s3 eq_refl) S2) as S3. pose proof (suffix_len _ _ (R2 s3 eq_refl)).
    destruct (IH s3 ltac:(lia) (suffix_ended _ _ S3 L)) as (r & R3 & R4). exists r. split.
    + apply Q. intros f Hf. cbn [group_loop]. rewrite E, Et, E2, R1 by lia. apply R3. lia.
    + intros b s' Er. destruct (R4 b s' Er) as [->|HH]; [now left|]. right. now apply (suffix_trans _ s3).
Qed.
(** Every search for a group, and for a key in a group, ends in a file whose last line is ended by
    a newline (whatever else the file contains). *)
Theorem C47_group_terminates junk path : forall s, lines_ended s ->
  exists r, ends (fun f => GotoGroup f junk path s) r.
Proof.
  assert (H : forall s, lines_ended s -> exists r, ends (fun f => GotoGroup f junk path s) r); [|exact H].
  induction path as [|nm path IH]; intros s L; [eexists; exists 0; reflexivity|].
  destruct (group_ends junk nm (S (length (eatwhite s))) (eatwhite s) (Nat.lt_succ_diag_r _) (suffix_ended _ _ (eat_suffix s) L)) as (r & R1 & R2).
  destruct r as [[b s']| |].
  - destruct path as [|nm2 path].
    + exists (Ok (b, s')), (length (eatwhite s) + 3). intros m Hm. cbn [GotoGroup]. rewrite R1 by lia. reflexivity.
    + destruct (IH s') as (r & n & Hr).
      { destruct (R2 b s' eq_refl) as [->|S']; [now left|]. apply (suffix_ended _ _ S'). apply (suffix_ended _ _ (eat_suffix s) L). }
      exists r, (n + length (eatwhite s) + 3). intros m Hm. cbn [GotoGroup]. rewrite R1 by lia. apply Hr. lia.
  - exists Err, (length (eatwhite s) + 3). intros m Hm. cbn [GotoGroup]. rewrite R1 by lia. reflexivity.
  - exists UB, (length (eatwhite s) + 3). intros m Hm. cbn [GotoGroup]. rewrite R1 by lia. reflexivity.
Qed.

Lemma item_ends n : forall s, length s < n ->
  exists r, (forall f, length s < f -> skip_item f s = Some r) /\ (forall s', r = Ok (Some s') -> suffix s' s).
Proof.
  induction n as [|n IH]; intros s Hn; [lia|]. destruct s as [|c s].
  { exists (Ok None). split; [intros [|f] Hf; [cbn in Hf; lia|reflexivity]|discriminate]. }
  cbn [length] in *.
  assert (Q : forall r, (forall f, length s < f -> skip_item (S f) (c :: s) = Some r) -> forall f, S (length s) < f -> skip_item f (c :: s) = Some r).
  { intros r H [|f] Hf; [lia|]. apply H. lia. }
  destruct (Ascii.eqb c newline || Ascii.eqb c "," || Ascii.eqb c ";") eqn:E1.
  - exists (Ok (Some (eatwhite s))). split; [apply Q; intros; cbn [skip_item]; now rewrite E1|]. intros s' [= <-]. apply suffix_cons, eat_suffix.
  - destruct (Ascii.eqb c "{") eqn:E2.
    + destruct (matchbracket 1 s) as [s2| |] eqn:E.
      * destruct (match_suffix _ _ _ E) as [S2 Len]. destruct (IH s2 ltac:(lia)) as (r & H1 & H2). exists r. split.
        -- apply Q. intros f Hf. cbn [skip_item]. rewrite E1, E2, E. apply H1. lia.
        -- intros s' Er. apply suffix_cons. apply (suffix_trans _ s2); auto.
      * exists Err. split; [apply Q; intros; cbn [skip_item]; now rewrite E1, E2, E|discriminate].
      * exists UB. split; [apply Q; intros; cbn [skip_item]; now rewrite E1, E2, E|discriminate].
    + destruct (IH s ltac:(lia)) as (r & H1 & H2). exists r. split; [|intros s' E; now apply suffix_cons, H2].
      apply Q. intros f Hf. cbn [skip_item]. rewrite E1, E2. now apply H1.
Qed.
Lemma search_ends k n : forall s, length s < n -> exists r, forall f, length s + 2 < f -> token_search f k s = Some r.
Proof.
  induction n as [|n IH]; intros s Hn; [lia|].
  assert (Q : forall r, (forall f, length s + 1 < f -> token_search (S f) k s = Some r) -> forall f, length s + 2 < f -> token_search f k s = Some r).
  { intros r H [|f] Hf; [lia|]. apply H. lia. }
  destruct (gettoken s) as [[[t s1]|]| |] eqn:E.
  2-4: eexists; apply Q; intros; cbn [token_search]; rewrite E; reflexivity.
  destruct (gettoken_suffix _ _ _ E) as [S1 Len1].
  destruct (Ascii.eqb (front t) "}") eqn:E1; [eexists; apply Q; intros; cbn [token_search]; rewrite E, E1; reflexivity|].
  destruct (text_eqb t k) eqn:E2.
  { destruct (eatwhite s1) as [|c s2] eqn:E3; [|destruct (Ascii.eqb c "=") eqn:E4]; eexists; apply Q; intros; cbn [token_search]; rewrite E, E1, E2, E3; rewrite ?E4; reflexivity. }
  assert (H2 : exists o, (if Ascii.eqb (front t) "{" then matchbracket 1 s1 else Ok s1) = o /\ forall s2, o = Ok s2 -> length s2 < length s).
  { eexists. split; [reflexivity|]. intros s2 H. destruct (Ascii.eqb (front t) "{"); [|injection H as <-; auto]. apply match_suffix in H. lia. }
  destruct H2 as ([s2| |] & E3 & H2).
  2-3: eexists; apply Q; intros; cbn [token_search]; rewrite E, E1, E2, E3; reflexivity.
  specialize (H2 s2 eq_refl). destruct (item_ends (S (length s2)) s2 (Nat.lt_succ_diag_r _)) as (r & R1 & R2).
  destruct r as [[s3|]| |].
  2-4: eexists; apply Q; intros; cbn [token_search]; rewrite E, E1, E2, E3, R1 by lia; reflexivity.
  pose proof (suffix_len _ _ (R2 s3 eq_refl)). destruct (IH s3 ltac:(lia)) as (r & R3). exists r.
  apply Q. intros f Hf. cbn [token_search]. rewrite E, E1, E2, E3, R1 by lia. apply R3. lia.
Qed.
Theorem C47_key_terminates junk path k s : lines_ended s -> exists r, ends (fun f => GotoToken f junk path k s) r.
Proof.
  intros L. destruct (C47_group_terminates junk path s L) as (r & n & H). destruct r as [[[] s']| |].
  - destruct (search_ends k (S (length s')) s' (Nat.lt_succ_diag_r _)) as (r & R). exists r, (n + length s' + 3).
    intros m Hm. unfold GotoToken. rewrite H by lia. apply R. lia.
  - eexists. exists n. intros m Hm. unfold GotoToken. rewrite H by lia. reflexivity.
  - eexists. exists n. intros m Hm. unfold GotoToken. rewrite H by lia. reflexivity.
  - eexists. exists n. intros m Hm. unfold GotoToken. rewrite H by lia. reflexivity.
Qed.
Theorem C47_skipline p s : (forall c, In c p -> c <> newline) -> ends (fun f => SkipLine f (p ++ newline :: s)) (eatwhite s).
Proof.
  intros H. unfold SkipLine. assert (Q : forall p c, c <> newline -> (forall c, In c p -> c <> newline) -> forall m, length p + 2 <= m -> skipline_loop m c (p ++ newline :: s) = Some (eatwhite s)).
  { clear. induction p as [|x p IH]; intros c Hc H [|m] Hm; try (cbn [length] in Hm; lia).
    - cbn [length] in Hm. destruct m as [|m]; [lia|]. cbn [skipline_loop app]. rewrite (ceqb_neq _ _ Hc). reflexivity.
    - cbn [skipline_loop app]. rewrite (ceqb_neq _ _ Hc). apply IH; [apply H; now left|intros; apply H; now right|cbn [length] in Hm; lia]. }
  exists (length p + 2). intros m Hm. apply Q; auto. discriminate.
Qed.

(** ** what goes wrong *)
Definition str (s : string) : text := list_ascii_of_string s.
Arguments str s%string_scope.
Definition pair_entry (k v : string) (sep : ascii) (w : string) : entry := Pair (str k) (str " ") (str " ") (str v) sep (str w).
Arguments pair_entry (k v)%string_scope sep w%string_scope.
(** A last line without its newline hangs the search for a group that is not there (unless the
    uninitialised variable happens to hold a newline or a bracket). *)
Lemma line_hangs junk f : junk <> newline -> junk <> "{" -> forall s, (forall c, In c s -> c <> newline /\ c <> "{") -> skip_line f junk s = None.
Proof.
  intros J1 J2. induction f as [|f IH]; intros s H; [reflexivity|]. cbn [skip_line]. destruct s as [|c s].
  - rewrite (ceqb_neq _ _ J1), (ceqb_neq _ _ J2). now apply IH.
  - destruct (H c (or_introl eq_refl)) as [H1 H2]. rewrite (ceqb_neq _ _ H1), (ceqb_neq _ _ H2). apply IH. intros; apply H; now right.
Qed.
Theorem C47_no_newline_refuted junk nm k c s f : junk <> newline -> junk <> "{" -> name k -> nm <> k ->
  letter c = false -> isdigit c = false -> (forall x, In x (c :: s) -> x <> newline /\ x <> "{") ->
  GotoGroup f junk [nm] (k ++ c :: s) = None.
Proof.
  intros J1 J2 N Ne L D H. cbn [GotoGroup]. rewrite eat_name by auto. destruct f as [|f]; [reflexivity|]. cbn [group_loop].
  rewrite token_name by auto. rewrite text_eqb_neq by auto. rewrite (ceqb_neq _ _ (proj1 (front_name k N))). now rewrite (line_hangs junk f J1 J2 (c :: s) H).
Qed.
Theorem C47_skipline_refuted s f : (forall c, In c s -> c <> newline) -> SkipLine f s = None.
Proof.
  intros H. unfold SkipLine. assert (Q : forall f c s, c <> newline -> (forall c, In c s -> c <> newline) -> skipline_loop f c s = None).
  { clear. induction f as [|f IH]; intros c s Hc H; [reflexivity|]. cbn [skipline_loop]. rewrite (ceqb_neq _ _ Hc). destruct s as [|x s]; [now apply IH|].
    apply IH; [apply H; now left|intros; apply H; now right]. }
  apply Q; auto. discriminate.
Qed.
(** 512 letters in a row are undefined behaviour. *)
Lemma long_token n : forall i acc s, (forall c, In c (firstn n s) -> isalpha c = true) -> n <= length s -> i + n = 512 -> token_loop i acc s = UB.
Proof.
  induction n as [|n IH]; intros i acc s H Hl Hi.
  - replace i with 512 by lia. destruct s; reflexivity.
  - destruct s as [|c s]; [cbn [length] in Hl; lia|]. cbn [token_loop]. destruct (i =? 512)%nat; [reflexivity|].
    rewrite (H c) by now left. cbn [orb]. apply IH; [intros; apply H; now right|cbn [length] in Hl; lia|lia].
Qed.
Theorem C47_long_token_refuted w s : length w = 512 -> (forall c, In c w -> isalpha c = true) -> gettoken (w ++ s) = UB.
Proof.
  intros Hl H. unfold gettoken. destruct w as [|c w]; [discriminate|]. pose proof (H c (or_introl eq_refl)) as A.
  assert (E : isspace c = false) by (destruct (letter_char c) as (E & _); [unfold letter; now rewrite A|exact E]).
  cbn [app]. rewrite eat_char by exact E. change (c :: w ++ s) with ((c :: w) ++ s). apply (long_token 512); [|rewrite app_length; lia|reflexivity].
  intros x Hx. apply H. rewrite firstn_app, Hl in Hx. replace (512 - 512) with 0 in Hx by lia. rewrite firstn_O, app_nil_r, firstn_all2 in Hx by lia. exact Hx.
Qed.
(** A string ended by a comma keeps the comma. *)
Theorem C47_comma_refuted :
  let f := str "g {" ++ newline :: str "a = foo, b = 2" ++ newline :: str "}" ++ [newline] in
  GetString 100 "x" [str "g"] (str "a") f = Some (Ok (Some (str "foo,"))) /\ GetInt 100 "x" [str "g"] (str "b") f = Some (Ok (Some 2%Z)).
Proof. vm_compute. split; reflexivity. Qed.
(** The search for a child group runs out of its parent: a group after the parent is taken. *)
Theorem C47_child_refuted :
  let f := str "p {" ++ newline :: str "}" ++ newline :: str "c {" ++ newline :: str "a = 1" ++ newline :: str "}" ++ [newline] in
  GetInt 100 "x" [str "p"; str "c"] (str "a") f = Some (Ok (Some 1%Z)).
Proof. reflexivity. Qed.
(** A child group on the same line as a pair before it is not found. *)
Theorem C47_same_line_refuted :
  let f := str "p {" ++ newline :: str "M = 3, c { x = 7" ++ newline :: str "}" ++ newline :: str "}" ++ [newline] in
  GetInt 100 "x" [str "p"; str "c"] (str "x") f = Some (Ok None) /\ GetInt 100 "x" [str "p"] (str "M") f = Some (Ok (Some 3%Z)).
Proof. split; reflexivity. Qed.
(** GetYesNo with a bool sets the caller's variable to false if the key is absent. *)
Theorem C47_yesno_refuted :
  let f := str "g {" ++ newline :: str "a = yes" ++ newline :: str "}" ++ [newline] in
  GetYesNo_bool 100 "x" [str "g"] (str "b") f true = Some (Ok (false, false)).
Proof. reflexivity. Qed.

(** A file with two groups, a nested one, a pair list on one line, and odd white space meets the
    hypotheses. *)
Example C47_nonvacuous :
  let inner := Group (str "sub") [] [newline] [pair_entry "x" "7" newline "  "] [] (str "  ") in
  let g1 := Group (str "other") (str " ") [newline] [pair_entry "N" "5" newline ""] (str " done") [newline] in
  let es1 := [inner; pair_entry "M" "3" "," " "] in
  let g2 := Group (str "main") [newline] (str "  ") (es1 ++ [pair_entry "N" (string_of_list_ascii (show (-42))) ";" " "; pair_entry "K" "1" newline ""]) [] [] in
  let f := file [g1; g2] in
  (Forall good [g1; g2] /\ Forall own_line [g1; g2] /\ lines_ended f) /\
  GetInt 100 "x" [str "main"] (str "N") f = Some (Ok (Some (-42)%Z)) /\
  GetInt 100 "x" [str "main"; str "sub"] (str "x") f = Some (Ok (Some 7%Z)) /\
  getInt 100 "x" [str "main"] (str "Q") 9%Z f = Some (Ok 9%Z).
Proof.
  cbv zeta. split.
  - assert (W : forall w, forallb isspace w = true -> white w) by (intros w H c Hc; rewrite forallb_forall in H; auto).
    assert (PL : forall w, forallb (fun c => negb (existsb (Ascii.eqb c) [newline; ","; ";"; "{"; "}"])) w = true -> plain w).
    { intros w H c Hc I. rewrite forallb_forall in H. specialize (H c Hc). apply negb_true_iff in H.
      assert (existsb (Ascii.eqb c) [newline; ","; ";"; "{"; "}"] = true); [|congruence]. apply existsb_exists. exists c. split; auto. apply Ascii.eqb_refl. }
    assert (NM : forall c k, letter c = true -> forallb (fun c' => letter c' || isdigit c') k = true -> length (c :: k) <= 511 -> name (c :: k)).
    { intros c k H1 H2 H3. split; auto. exists c, k. repeat split; auto. now rewrite forallb_forall in H2. }
    assert (GP : forall c k w1 w2 v sep w3, letter c = true -> forallb (fun c' => letter c' || isdigit c') k = true -> length (c :: k) <= 511 ->
      forallb (fun c => isspace c && negb (existsb (Ascii.eqb c) [newline; ","; ";"; "{"; "}"])) (w1 ++ w2) = true ->
      forallb (fun c => negb (existsb (Ascii.eqb c) [newline; ","; ";"; "{"; "}"])) v = true -> match v with [] => False | c :: _ => isspace c = false end ->
      In sep [newline; ","; ";"] -> forallb isspace w3 = true -> good (Pair (c :: k) w1 w2 v sep w3)).
    { intros c k w1 w2 v sep w3 H1 H2 H3 H4 H5 H6 H7 H8. rewrite forallb_app in H4. apply andb_prop in H4. destruct H4 as [H4 H4'].
      assert (SPL : forall w, forallb (fun c => isspace c && negb (existsb (Ascii.eqb c) [newline; ","; ";"; "{"; "}"])) w = true -> white w /\ plain w).
      { intros w H. rewrite forallb_forall in H. split; [apply W|apply PL]; apply forallb_forall; intros x Hx; specialize (H x Hx); apply andb_prop in H; tauto. }
      destruct (SPL w1 H4), (SPL w2 H4'). constructor; auto. split; auto. }
    assert (GG : forall c k w1 w2 es tail w3, letter c = true -> forallb (fun c' => letter c' || isdigit c') k = true -> length (c :: k) <= 511 ->
      forallb isspace (w1 ++ w2 ++ w3) = true -> Forall good es -> forallb (fun c => negb (existsb (Ascii.eqb c) [newline; ","; ";"; "{"; "}"])) tail = true ->
      good (Group (c :: k) w1 w2 es tail w3)).
    { intros c k w1 w2 es tail w3 H1 H2 H3 H4 H5 H6. rewrite !forallb_app in H4. apply andb_prop in H4. destruct H4 as [H4 H4']. apply andb_prop in H4'. destruct H4'. constructor; auto. }
    split; [|split].
    + repeat (first [apply Forall_nil | apply Forall_cons | apply GG | apply GP]); vm_compute; try reflexivity; try lia; try tauto.
    + repeat constructor.
    + match goal with |- lines_ended ?f => right; exists (removelast f) end. vm_compute. reflexivity.
  - vm_compute. repeat split.
Qed.

Print Assumptions C47_group_found.
Print Assumptions C47_nested_found.
Print Assumptions C47_group_absent.
Print Assumptions C47_key_found.
Print Assumptions C47_key_absent.
Print Assumptions C47_string.
Print Assumptions C47_int.
Print Assumptions C47_getInt.
Print Assumptions C47_getInt_default.
Print Assumptions C47_group_terminates.
Print Assumptions C47_key_terminates.
Print Assumptions C47_skipline.
Print Assumptions C47_no_newline_refuted.
Print Assumptions C47_skipline_refuted.
Print Assumptions C47_long_token_refuted.
Print Assumptions C47_comma_refuted.
Print Assumptions C47_child_refuted.
Print Assumptions C47_yesno_refuted.
Print Assumptions C47_same_line_refuted.
