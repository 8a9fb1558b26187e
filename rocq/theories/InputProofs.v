(** Lemmas about the input file reader. *)
From Coq Require Import List ZArith Lia Bool Arith Ascii.
From Verif Require Import Util InputModel InputSpec.
Import ListNotations.
Local Open Scope char_scope.
Local Arguments Nat.sub : simpl never.

Lemma text_eqb_spec a b : text_eqb a b = true <-> a = b.
Proof. unfold text_eqb. destruct (list_eq_dec ascii_dec a b); split; congruence. Qed.
Lemma text_eqb_refl a : text_eqb a a = true.
Proof. now apply text_eqb_spec. Qed.
Lemma text_eqb_neq a b : a <> b -> text_eqb a b = false.
Proof. intros H. destruct (text_eqb a b) eqn:E; auto. apply text_eqb_spec in E. contradiction. Qed.
Lemma ceqb_neq a b : a <> b -> Ascii.eqb a b = false.
Proof. intros H. now apply Ascii.eqb_neq. Qed.

Lemma space_char c : isspace c = true -> letter c = false /\ isdigit c = false /\ c <> "{" /\ c <> "}" /\ c <> "=".
Proof. destruct c as [[] [] [] [] [] [] [] []]; vm_compute; repeat split; intros; congruence. Qed.
Lemma letter_char c : letter c = true -> isspace c = false /\ isdigit c = false /\ c <> "{" /\ c <> "}" /\ c <> newline /\ c <> "=" /\ c <> "," /\ c <> ";" /\ code c <> 0.
Proof. destruct c as [[] [] [] [] [] [] [] []]; vm_compute; repeat split; intros; congruence. Qed.
Lemma digit_char c : isdigit c = true -> isspace c = false /\ letter c = false /\ c <> "{" /\ c <> "}" /\ c <> newline /\ c <> "=".
Proof. destruct c as [[] [] [] [] [] [] [] []]; vm_compute; repeat split; intros; congruence. Qed.

Lemma eat_white w s : white w -> eatwhite (w ++ s) = eatwhite s.
Proof.
  unfold white. induction w as [|c w IH]; intros H; [reflexivity|]. cbn [app eatwhite]. rewrite (H c) by now left. apply IH. intros; apply H; now right.
Qed.
Lemma eat_name k s : name k -> eatwhite (k ++ s) = k ++ s.
Proof. intros [(c & k' & -> & L & _) _]. cbn [app eatwhite]. now rewrite (proj1 (letter_char c L)). Qed.
Lemma eat_char c s : isspace c = false -> eatwhite (c :: s) = c :: s.
Proof. intros H. cbn. now rewrite H. Qed.
Lemma eat_eat s : eatwhite (eatwhite s) = eatwhite s.
Proof. induction s as [|c s IH]; [reflexivity|]. cbn [eatwhite]. destruct (isspace c) eqn:E; auto. cbn. now rewrite E. Qed.

(** ** tokens *)
Lemma token_rest k : forall i acc c s, (forall c', In c' k -> letter c' || isdigit c' = true) -> letter c = false -> isdigit c = false ->
  0 < i -> i + length k <= 511 -> token_loop i acc (k ++ c :: s) = Ok (Some (acc ++ k, c :: s)).
Proof.
  induction k as [|a k IH]; intros i acc c s Hk L D Hi Hl.
  - cbn [app token_loop]. cbn in Hl. destruct (Nat.eqb_spec i 512); [lia|]. unfold letter in L. rewrite L, D, andb_false_r. cbn [orb].
    destruct (Nat.eqb_spec i 0); [lia|]. now rewrite app_nil_r.
  - cbn [app token_loop]. cbn [length] in Hl. destruct (Nat.eqb_spec i 512); [lia|].
    replace (isalpha a || Ascii.eqb a "_" || (negb (i =? 0)%nat && isdigit a)) with true.
    + rewrite IH; auto; [now rewrite <- app_assoc|intros; apply Hk; now right|lia].
    + specialize (Hk a (or_introl eq_refl)). unfold letter in Hk. destruct (Nat.eqb_spec i 0); [lia|]. cbn. now rewrite Hk.
Qed.
Lemma token_name k c s : name k -> letter c = false -> isdigit c = false -> gettoken (k ++ c :: s) = Ok (Some (k, c :: s)).
Proof.
  intros HK L D. unfold gettoken. rewrite (eat_name k) by auto. destruct HK as [(a & k' & -> & La & Hk) Hl]. cbn [app].
  cbn [token_loop]. cbn [length] in Hl. destruct (Nat.eqb_spec 0 512); [lia|]. unfold letter in La. rewrite La. cbn [orb].
  rewrite token_rest; auto; try lia; try reflexivity. 
Qed.
Lemma token_brace s : gettoken ("{" :: s) = Ok (Some (["{"], s)).
Proof. reflexivity. Qed.
Lemma token_close s : gettoken ("}" :: s) = Ok (Some (["}"], s)).
Proof. reflexivity. Qed.

(** ** brackets *)
Lemma match_plain p : forall n s, 0 < n -> (forall c, In c p -> c <> "{" /\ c <> "}") -> matchbracket n (p ++ s) = matchbracket n s.
Proof.
  induction p as [|c p IH]; intros n s Hn Hp; [reflexivity|]. cbn [app matchbracket].
  destruct (Hp c (or_introl eq_refl)) as [H1 H2]. rewrite (ceqb_neq _ _ H1), (ceqb_neq _ _ H2). destruct (Nat.eqb_spec n 0); [lia|].
  destruct (isspace c); apply IH; auto; intros; apply Hp; now right.
Qed.
Lemma match_open n s : matchbracket n ("{" :: s) = matchbracket (S n) s.
Proof. reflexivity. Qed.
Lemma match_close n s : matchbracket (S n) ("}" :: s) = if (n =? 0)%nat then Ok s else matchbracket n s.
Proof. cbn [matchbracket]. replace (isspace "}") with false by reflexivity. replace (Ascii.eqb "}" "{") with false by reflexivity. replace (Ascii.eqb "}" "}") with true by reflexivity. cbv zeta. replace (S n - 1) with n by lia. reflexivity. Qed.

Section EntryInd.
Context (P : entry -> Prop) (HP : forall k w1 w2 v sep w3, P (Pair k w1 w2 v sep w3))
  (HG : forall k w1 w2 es tail w3, Forall P es -> P (Group k w1 w2 es tail w3)).
Fixpoint entry_ind' (e : entry) : P e :=
  match e with
  | Pair k w1 w2 v sep w3 => HP k w1 w2 v sep w3
  | Group k w1 w2 es tail w3 => HG k w1 w2 es tail w3 ((fix go es : Forall P es := match es with [] => Forall_nil P | e :: es' => Forall_cons e (entry_ind' e) (go es') end) es)
  end.
End EntryInd.

Lemma name_nobrace k : name k -> forall c, In c k -> c <> "{" /\ c <> "}".
Proof.
  intros [(a & k' & -> & La & Hk) _] c [<-|H].
  - apply letter_char in La. tauto.
  - apply Hk in H. apply orb_prop in H. destruct H as [H|H]; [apply letter_char in H|apply digit_char in H]; tauto.
Qed.
Lemma white_nobrace w : white w -> forall c, In c w -> c <> "{" /\ c <> "}".
Proof. intros H c Hc. apply H, space_char in Hc. tauto. Qed.
Lemma plain_nobrace w : plain w -> forall c, In c w -> c <> "{" /\ c <> "}".
Proof. intros H c Hc. apply H in Hc. cbn in Hc. split; intros ->; tauto. Qed.

Ltac nb := first [lia | assumption | eapply name_nobrace; eassumption | eapply white_nobrace; eassumption | eapply plain_nobrace; eassumption].
Lemma match_entry e : good e -> forall n s, 0 < n -> matchbracket n (render e ++ s) = matchbracket n s.
Proof.
  induction e as [k w1 w2 v sep w3|k w1 w2 es tail w3 IH] using entry_ind'; intros G n s Hn.
  - inversion G; subst. cbn [render]. rewrite <- !app_assoc. cbn [app]. rewrite <- !app_assoc. cbn [app].
    rewrite match_plain by nb. rewrite match_plain by nb.
    change ("=" :: w2 ++ v ++ sep :: w3 ++ s) with (["="] ++ w2 ++ v ++ sep :: w3 ++ s).
    rewrite match_plain by (auto; intros c [<-|[]]; split; discriminate). rewrite match_plain by nb.
    match goal with H : value_text v |- _ => destruct H as [Hv _] end. rewrite match_plain by nb.
    change (sep :: w3 ++ s) with ([sep] ++ w3 ++ s).
    rewrite match_plain. 2:auto. 2:{ intros c [<-|[]]. match goal with H : In sep _ |- _ => destruct H as [<-|[<-|[<-|[]]]] end; split; discriminate. }
    now rewrite match_plain by nb.
  - inversion G as [|? ? ? ? ? ? N W1 W2 GE PT W3]; subst. cbn [render]. repeat (rewrite <- !app_assoc; cbn [app]).
    rewrite match_plain by nb. rewrite match_plain by nb. rewrite match_open.
    rewrite match_plain by nb.
    assert (EE : forall m t, 0 < m -> matchbracket m (flat_map render es ++ t) = matchbracket m t).
    { clear G. induction es as [|e es IHe]; intros m t Hm; [reflexivity|]. inversion IH; inversion GE; subst. cbn [flat_map]. rewrite <- app_assoc. rewrite H1; auto. }
    rewrite EE by lia. rewrite match_close. destruct (Nat.eqb_spec n 0); [lia|].
    rewrite match_plain by nb. change (newline :: w3 ++ s) with ([newline] ++ w3 ++ s).
    rewrite match_plain by (auto; intros c [<-|[]]; split; discriminate). now rewrite match_plain by nb.
Qed.
Lemma match_entries es : Forall good es -> forall n s, 0 < n -> matchbracket n (file es ++ s) = matchbracket n s.
Proof.
  unfold file. induction 1 as [|e es G _ IH]; intros n s Hn; [reflexivity|]. cbn [flat_map]. rewrite <- app_assoc, match_entry; auto.
Qed.

(** ** running loops *)
Lemma ends_S {A} (F G : nat -> option A) r : (forall n, F (S n) = G n) -> ends G r -> ends F r.
Proof. intros H [n Hn]. exists (S n). intros [|m] Hm; [lia|]. rewrite H. apply Hn. lia. Qed.
Lemma ends_fun {A} (F : nat -> option A) r r' : ends F r -> ends F r' -> r = r'.
Proof. intros [n Hn] [m Hm]. pose proof (Hn (max n m) ltac:(lia)). pose proof (Hm (max n m) ltac:(lia)). congruence. Qed.
Lemma ends_now {A} (F : nat -> option A) r : (forall n, F (S n) = Some r) -> ends F r.
Proof. intros H. exists 1. intros [|m] Hm; [lia|]. apply H. Qed.

Lemma line_plain junk p s r : (forall c, In c p -> c <> "{" /\ c <> newline) -> ends (fun f => skip_line f junk s) r -> ends (fun f => skip_line f junk (p ++ s)) r.
Proof.
  intros Hp H. induction p as [|c p IH]; [exact H|]. destruct (Hp c (or_introl eq_refl)) as [H1 H2].
  apply (ends_S _ (fun f => skip_line f junk (p ++ s))); [|apply IH; intros; apply Hp; now right].
  intros n. cbn [app skip_line]. now rewrite (ceqb_neq _ _ H1), (ceqb_neq _ _ H2).
Qed.
Lemma line_newline junk s : ends (fun f => skip_line f junk (newline :: s)) (Ok (eatwhite s)).
Proof. apply ends_now. reflexivity. Qed.
Lemma line_brace junk s s' r : matchbracket 1 s = Ok s' -> ends (fun f => skip_line f junk s') r -> ends (fun f => skip_line f junk ("{" :: s)) r.
Proof. intros H. apply ends_S. intros n. cbn [skip_line]. replace (Ascii.eqb "{" "{") with true by reflexivity. rewrite H. reflexivity. Qed.

Lemma item_plain p s r : (forall c, In c p -> c <> "{" /\ c <> newline /\ c <> "," /\ c <> ";") -> ends (fun f => skip_item f s) r -> ends (fun f => skip_item f (p ++ s)) r.
Proof.
  intros Hp H. induction p as [|c p IH]; [exact H|]. destruct (Hp c (or_introl eq_refl)) as (H1 & H2 & H3 & H4).
  apply (ends_S _ (fun f => skip_item f (p ++ s))); [|apply IH; intros; apply Hp; now right].
  intros n. cbn [app skip_item]. now rewrite (ceqb_neq _ _ H1), (ceqb_neq _ _ H2), (ceqb_neq _ _ H3), (ceqb_neq _ _ H4).
Qed.
Lemma item_sep sep s : In sep [newline; ","; ";"] -> ends (fun f => skip_item f (sep :: s)) (Ok (Some (eatwhite s))).
Proof. intros H. apply ends_now. intros n. cbn [skip_item]. destruct H as [<-|[<-|[<-|[]]]]; reflexivity. Qed.
Lemma item_brace s s' r : matchbracket 1 s = Ok s' -> ends (fun f => skip_item f s') r -> ends (fun f => skip_item f ("{" :: s)) r.
Proof. intros H. apply ends_S. intros n. cbn [skip_item]. replace (Ascii.eqb "{" "{") with true by reflexivity. cbn. now rewrite H. Qed.

(** One entry passed over by group_loop / token_search. *)
Lemma group_step junk nm s t s1 s2 r : gettoken s = Ok (Some (t, s1)) -> t <> nm ->
  (if Ascii.eqb (front t) "{" then matchbracket 1 s1 else Ok s1) = Ok s2 ->
  forall s3, ends (fun f => skip_line f junk s2) (Ok s3) -> ends (fun f => group_loop f junk nm s3) r -> ends (fun f => group_loop f junk nm s) r.
Proof.
  intros E N EM s3 [n1 H1] [n2 H2]. exists (S (max n1 n2)). intros [|m] Hm; [lia|]. cbn [group_loop]. rewrite E, (text_eqb_neq _ _ N), EM.
  rewrite H1 by lia. apply H2. lia.
Qed.
Lemma token_step ky s t s1 s2 r : gettoken s = Ok (Some (t, s1)) -> t <> ky -> front t <> "}" ->
  (if Ascii.eqb (front t) "{" then matchbracket 1 s1 else Ok s1) = Ok s2 ->
  forall s3, ends (fun f => skip_item f s2) (Ok (Some s3)) -> ends (fun f => token_search f ky s3) r -> ends (fun f => token_search f ky s) r.
Proof.
  intros E N NB EM s3 [n1 H1] [n2 H2]. exists (S (max n1 n2)). intros [|m] Hm; [lia|]. cbn [token_search]. rewrite E, (text_eqb_neq _ _ N), (ceqb_neq _ _ NB), EM.
  rewrite H1 by lia. apply H2. lia.
Qed.

Lemma front_name k : name k -> front k <> "{" /\ front k <> "}".
Proof. intros [(c & k' & -> & L & _) _]. apply letter_char in L. cbn. tauto. Qed.

Lemma not_name_brace k : name k -> k <> ["{"].
Proof. intros [(c & k' & -> & L & _) _] E. injection E as -> ->. discriminate. Qed.

Lemma plain_line p : plain p -> forall c, In c p -> c <> "{" /\ c <> newline.
Proof. intros H c Hc. apply H in Hc. cbn in Hc. split; intros ->; tauto. Qed.
Lemma plain_item p : plain p -> forall c, In c p -> c <> "{" /\ c <> newline /\ c <> "," /\ c <> ";".
Proof. intros H c Hc. apply H in Hc. cbn in Hc. repeat split; intros ->; tauto. Qed.

(** White space without a newline, or split at its first newline. *)
Lemma white_split w : (forall c, In c w -> c <> newline) \/ exists a b, w = a ++ newline :: b /\ forall c, In c a -> c <> newline.
Proof.
  induction w as [|c w IH]; [left; intros ? []|]. destruct (ascii_dec c newline) as [->|N]; [right; exists [], w; split; [reflexivity|intros ? []]|].
  destruct IH as [IH|(a & b & -> & IH)].
  - left. intros c' [<-|H]; auto.
  - right. exists (c :: a), b. split; [reflexivity|]. intros c' [<-|H]; auto.
Qed.
Lemma white_item w : white w -> forall c, In c w -> c <> "{" /\ c <> "," /\ c <> ";".
Proof. intros H c Hc. apply H in Hc. destruct c as [[] [] [] [] [] [] [] []]; vm_compute in Hc |- *; repeat split; intros; congruence. Qed.

Lemma white_app w1 w2 : white (w1 ++ w2) -> white w1 /\ white w2.
Proof. intros H. split; intros c Hc; apply H; apply in_or_app; auto. Qed.

Lemma next_char w c s : white w -> letter c = false -> isdigit c = false -> exists c' s', w ++ c :: s = c' :: s' /\ letter c' = false /\ isdigit c' = false.
Proof. intros H L D. destruct w as [|a w]; [exists c, s; repeat split; auto|]. destruct (space_char a (H a (or_introl eq_refl))) as (? & ? & _). exists a, (w ++ c :: s); repeat split; auto. Qed.

Lemma group_pass junk nm e s r : good e -> own_line e -> key e <> nm -> nm <> ["{"] ->
  ends (fun f => group_loop f junk nm (eatwhite s)) r -> ends (fun f => group_loop f junk nm (render e ++ s)) r.
Proof.
  intros G OL NK NB H. inversion G as [k w1 w2 v sep w3 N W1 P1 W2 P2 V HS W3|k w1 w2 es tail w3 N W1 W2 GE PT W3]; subst; cbn [key own_line render] in *.
  - subst sep. repeat (rewrite <- !app_assoc; cbn [app]).
    destruct (next_char w1 "=" (w2 ++ v ++ newline :: w3 ++ s) W1 eq_refl eq_refl) as (c & s' & Es & L & D).
    eapply (group_step junk nm _ k (c :: s') (c :: s')); [rewrite Es; now apply token_name|exact NK|now rewrite (ceqb_neq _ _ (proj1 (front_name k N)))| |exact H].
    rewrite <- Es. apply line_plain; [now apply plain_line|].
    change ("=" :: w2 ++ v ++ newline :: w3 ++ s) with (["="] ++ w2 ++ v ++ newline :: w3 ++ s).
    apply line_plain; [intros ? [<-|[]]; split; discriminate|]. apply line_plain; [now apply plain_line|]. destruct V as [PV _].
    apply line_plain; [now apply plain_line|]. rewrite <- (eat_white w3 s) by auto. apply line_newline.
  - repeat (rewrite <- !app_assoc; cbn [app]).
    set (body := w2 ++ flat_map render es ++ "}" :: tail ++ newline :: w3 ++ s).
    assert (MB : matchbracket 1 body = Ok (tail ++ newline :: w3 ++ s)).
    { unfold body. rewrite match_plain by nb. fold (file es). rewrite match_entries by auto. now rewrite match_close. }
    assert (LT : ends (fun f => skip_line f junk (tail ++ newline :: w3 ++ s)) (Ok (eatwhite s))).
    { apply line_plain; [now apply plain_line|]. rewrite <- (eat_white w3 s) by auto. apply line_newline. }
    destruct (next_char w1 "{" body W1 eq_refl eq_refl) as (c & s' & Es & L & D).
    destruct (white_split w1) as [NN|(a & b & EW & Ha)].
    + eapply (group_step junk nm _ k (c :: s') (c :: s')); [rewrite Es; now apply token_name|exact NK|now rewrite (ceqb_neq _ _ (proj1 (front_name k N)))| |exact H].
      rewrite <- Es. apply line_plain; [intros c0 H0; split; [now apply (white_item w1)|auto]|]. now apply (line_brace junk body _ _ MB).
    + assert (Wa : white a /\ white (newline :: b)) by (apply white_app; now rewrite <- EW). destruct Wa as [Wa Wb].
      assert (Wb' : white b) by (intros x Hx; apply Wb; now right).
      eapply (group_step junk nm _ k (c :: s') (c :: s')); [rewrite Es; now apply token_name|exact NK|now rewrite (ceqb_neq _ _ (proj1 (front_name k N)))| |].
      * rewrite <- Es, EW, <- app_assoc. cbn [app]. apply line_plain; [intros c0 H0; split; [now apply (white_item a)|auto]|].
        apply line_newline.
      * rewrite (eat_white b) by auto. rewrite eat_char by reflexivity.
        eapply (group_step junk nm _ ["{"] body); [apply token_brace|congruence|exact MB|exact LT|exact H].
Qed.

Lemma token_pass ky e s r : good e -> key e <> ky -> ky <> ["{"] ->
  ends (fun f => token_search f ky (eatwhite s)) r -> ends (fun f => token_search f ky (render e ++ s)) r.
Proof.
  intros G NK NB H. inversion G as [k w1 w2 v sep w3 N W1 P1 W2 P2 V HS W3|k w1 w2 es tail w3 N W1 W2 GE PT W3]; subst; cbn [key render] in *.
  - repeat (rewrite <- !app_assoc; cbn [app]).
    destruct (next_char w1 "=" (w2 ++ v ++ sep :: w3 ++ s) W1 eq_refl eq_refl) as (c & s' & Es & L & D).
    eapply (token_step ky _ k (c :: s') (c :: s')); [rewrite Es; now apply token_name|exact NK|now apply front_name|now rewrite (ceqb_neq _ _ (proj1 (front_name k N)))| |exact H].
    rewrite <- Es. apply item_plain; [now apply plain_item|].
    change ("=" :: w2 ++ v ++ sep :: w3 ++ s) with (["="] ++ w2 ++ v ++ sep :: w3 ++ s).
    apply item_plain; [intros ? [<-|[]]; repeat split; discriminate|]. apply item_plain; [now apply plain_item|]. destruct V as [PV _].
    apply item_plain; [now apply plain_item|]. rewrite <- (eat_white w3 s) by auto. now apply item_sep.
  - repeat (rewrite <- !app_assoc; cbn [app]).
    set (body := w2 ++ flat_map render es ++ "}" :: tail ++ newline :: w3 ++ s).
    assert (MB : matchbracket 1 body = Ok (tail ++ newline :: w3 ++ s)).
    { unfold body. rewrite match_plain by nb. fold (file es). rewrite match_entries by auto. now rewrite match_close. }
    assert (LT : ends (fun f => skip_item f (tail ++ newline :: w3 ++ s)) (Ok (Some (eatwhite s)))).
    { apply item_plain; [now apply plain_item|]. rewrite <- (eat_white w3 s) by auto. apply item_sep. now left. }
    destruct (next_char w1 "{" body W1 eq_refl eq_refl) as (c & s' & Es & L & D).
    destruct (white_split w1) as [NN|(a & b & EW & Ha)].
    + eapply (token_step ky _ k (c :: s') (c :: s')); [rewrite Es; now apply token_name|exact NK|now apply front_name|now rewrite (ceqb_neq _ _ (proj1 (front_name k N)))| |exact H].
      rewrite <- Es. apply item_plain; [intros c0 H0; destruct (white_item w1 W1 c0 H0) as (? & ? & ?); auto|]. now apply (item_brace body _ _ MB).
    + assert (Wa : white a /\ white (newline :: b)) by (apply white_app; now rewrite <- EW). destruct Wa as [Wa Wb].
      assert (Wb' : white b) by (intros x Hx; apply Wb; now right).
      eapply (token_step ky _ k (c :: s') (c :: s')); [rewrite Es; now apply token_name|exact NK|now apply front_name|now rewrite (ceqb_neq _ _ (proj1 (front_name k N)))| |].
      * rewrite <- Es, EW, <- app_assoc. cbn [app]. apply item_plain; [intros c0 H0; destruct (white_item a Wa c0 H0) as (? & ? & ?); auto|].
        apply item_sep. now left.
      * rewrite (eat_white b) by auto. rewrite eat_char by reflexivity.
        eapply (token_step ky _ ["{"] body); [apply token_brace|congruence|discriminate|exact MB|exact LT|exact H].
Qed.

Lemma eat_entry e s : good e -> eatwhite (render e ++ s) = render e ++ s.
Proof. intros G. inversion G; subst; cbn [render]; rewrite <- app_assoc; now apply eat_name. Qed.

Lemma group_passes junk nm es s r : Forall good es -> Forall own_line es -> Forall (fun e => key e <> nm) es -> nm <> ["{"] ->
  ends (fun f => group_loop f junk nm (eatwhite s)) r -> ends (fun f => group_loop f junk nm (eatwhite (file es ++ s))) r.
Proof.
  intros G OL NK NB H. induction es as [|e es IH]; [exact H|]. inversion G; inversion OL; inversion NK; subst. cbn [file flat_map]. rewrite <- app_assoc.
  rewrite eat_entry by auto. apply group_pass; auto.
Qed.
Lemma token_passes ky es s r : Forall good es -> Forall (fun e => key e <> ky) es -> ky <> ["{"] ->
  ends (fun f => token_search f ky (eatwhite s)) r -> ends (fun f => token_search f ky (eatwhite (file es ++ s))) r.
Proof.
  intros G NK NB H. induction es as [|e es IH]; [exact H|]. inversion G; inversion NK; subst. cbn [file flat_map]. rewrite <- app_assoc.
  rewrite eat_entry by auto. apply token_pass; auto.
Qed.
