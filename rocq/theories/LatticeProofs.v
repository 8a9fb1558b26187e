From Coq Require Import List ZArith Arith Bool Lia.
From Verif Require Import Util LatticeModel LatticeSpec.
Import ListNotations.

Lemma coords_of n Ny : 1 <= n -> 1 <= Ny ->
  n = site Ny ((n - 1) / Ny + 1) ((n - 1) mod Ny + 1) /\ 1 <= (n - 1) mod Ny + 1 <= Ny.
Proof.
  intros Hn Hy. unfold site.
  pose proof (Nat.div_mod (n - 1) Ny ltac:(lia)). pose proof (Nat.mod_upper_bound (n - 1) Ny ltac:(lia)).
  split; [|lia]. rewrite Nat.add_sub. nia.
Qed.

Lemma site_coords Ny x y : 1 <= x -> 1 <= y <= Ny ->
  (site Ny x y - 1) / Ny + 1 = x /\ (site Ny x y - 1) mod Ny + 1 = y.
Proof.
  intros Hx Hy. unfold site.
  set (k := x - 1).
  replace (k * Ny + y - 1) with ((y - 1) + k * Ny) by (generalize (k * Ny); intros; lia).
  rewrite Nat.div_add, Nat.mod_add by lia. rewrite Nat.div_small, Nat.mod_small by lia. lia.
Qed.

Lemma site_range Nx Ny x y : in_grid Nx Ny x y -> 1 <= site Ny x y <= Nx * Ny.
Proof. unfold in_grid, site. intros [Hx Hy]. nia. Qed.

Lemma site_inj Ny x y x' y' : 1 <= x -> 1 <= y <= Ny -> 1 <= x' -> 1 <= y' <= Ny ->
  site Ny x y = site Ny x' y' -> x = x' /\ y = y'.
Proof.
  intros H1 H2 H3 H4 E. destruct (site_coords Ny x y) as [A B]; auto.
  destruct (site_coords Ny x' y') as [A' B']; auto. rewrite E in A, B. split; congruence.
Qed.

Lemma site_right Ny x y : 1 <= x -> site Ny (x + 1) y = site Ny x y + Ny.
Proof. unfold site. intros. replace (x + 1 - 1) with (S (x - 1)) by lia. simpl. lia. Qed.

(** A number in range is a unique grid point. *)
Lemma grid_point Nx Ny n : 1 <= Ny -> 1 <= n <= Nx * Ny ->
  exists x y, in_grid Nx Ny x y /\ n = site Ny x y /\ (n - 1) / Ny + 1 = x /\ (n - 1) mod Ny + 1 = y.
Proof.
  intros Hy Hn. destruct (coords_of n Ny) as [E H]; [lia|lia|].
  exists ((n - 1) / Ny + 1), ((n - 1) mod Ny + 1). split; [|auto].
  split; auto. split; [lia|].
  assert ((n - 1) / Ny < Nx) by (apply Nat.div_lt_upper_bound; [lia|]; rewrite (Nat.mul_comm Ny Nx); lia).
  lia.
Qed.

(** ** Edge lists produced by a loop over n that emits bonds (n, t) *)
Definition heads (f : nat -> list LatticeBond) : Prop := forall n b, In b (f n) -> s1 b = n.

Lemma In_ends f l a b : heads f ->
  (In (a, b) (ends (flat_map f l)) <-> In a l /\ In b (map s2 (f a))).
Proof.
  intros Hh. unfold ends. rewrite in_map_iff. split.
  - intros (e & E & H). apply in_flat_map in H as (n & Hn & He).
    inversion E; subst. rewrite (Hh n e He). split; [auto|]. now apply in_map.
  - intros [Ha Hb]. apply in_map_iff in Hb as (e & <- & He).
    exists e. rewrite (Hh a e He). split; [auto|]. apply in_flat_map. eauto.
Qed.

Lemma NoDup_app' {A} (l1 l2 : list A) : NoDup l1 -> NoDup l2 -> (forall x, In x l1 -> ~ In x l2) -> NoDup (l1 ++ l2).
Proof.
  induction 1 as [|a l Ha Hl IH]; simpl; auto. intros H2 Hd. constructor.
  - rewrite in_app_iff. intros [H|H]; auto. apply (Hd a); auto.
  - apply IH; [assumption|]. intros x Hx. apply Hd. now right.
Qed.

Lemma NoDup_ends f l : heads f -> NoDup l -> (forall n, In n l -> NoDup (map s2 (f n))) ->
  NoDup (ends (flat_map f l)).
Proof.
  intros Hh Hl Hf. induction Hl as [|n l Hn Hl IH]; simpl; [constructor|].
  unfold ends. rewrite map_app. apply NoDup_app'.
  - specialize (Hf n (or_introl eq_refl)). pose proof (Hh n) as Hn'. clear - Hf Hn'.
    induction (f n) as [|e L IHL]; simpl; [constructor|]. inversion Hf; subst. constructor; auto.
    + intros H. apply in_map_iff in H as (e' & E & He'). apply H1. inversion E. now apply in_map.
    + apply IHL; auto. intros b Hb. apply Hn'. now right.
  - apply IH. intros m Hm. apply Hf. now right.
  - intros [a b] Ha Hb. apply in_map_iff in Ha as (e & E & He). inversion E; subst.
    rewrite (Hh n e He) in Hb. change (map (fun b => (s1 b, s2 b)) (flat_map f l)) with (ends (flat_map f l)) in Hb.
    apply In_ends in Hb; auto. tauto.
Qed.

Lemma in_emit c b b0 : In b (emit c b0) <-> c = true /\ b = b0.
Proof. unfold emit. destruct c; simpl; intuition congruence. Qed.

Lemma map_s2_emit c b : map s2 (emit c b) = if c then [s2 b] else [].
Proof. unfold emit. destruct c; auto. Qed.

Ltac des_heads :=
  intros n b; intros H;
  repeat (rewrite ?in_app_iff, ?in_emit in H;
          match type of H with
          | In _ (if ?c then _ else _) => destruct c; [|destruct H]
          | _ \/ _ => destruct H as [H|H]
          | _ /\ _ => destruct H as [_ ->]; reflexivity
          | In _ [] => destruct H
          end).

Lemma square_heads Nx Ny yp : heads (square_body Nx Ny yp).
Proof. unfold square_body. des_heads. Qed.
Lemma squareNN_heads Nx Ny yp : heads (squareNN_body Nx Ny yp).
Proof. unfold squareNN_body. des_heads. Qed.
Lemma tri_heads Nx Ny yp : heads (tri_body Nx Ny yp).
Proof. unfold tri_body. des_heads. Qed.

(** Booleans to propositions *)
Ltac b2p := repeat match goal with
  | H : (_ && _)%bool = true |- _ => apply andb_true_iff in H; destruct H
  | H : (_ <? _) = true |- _ => apply Nat.ltb_lt in H
  | H : (_ <? _) = false |- _ => apply Nat.ltb_ge in H
  | H : (_ <=? _) = true |- _ => apply Nat.leb_le in H
  | H : (_ =? _) = true |- _ => apply Nat.eqb_eq in H
  end.

Lemma in_map_emit c e b : In b (map s2 (emit c e)) <-> c = true /\ b = s2 e.
Proof. unfold emit. destruct c; simpl; intuition congruence. Qed.
Lemma in_map_if (c : bool) (l : list LatticeBond) b :
  In b (map s2 (if c then l else [])) <-> c = true /\ In b (map s2 l).
Proof. destruct c; simpl; intuition congruence. Qed.
Ltac simp_in :=
  repeat rewrite ?map_app, ?in_app_iff, ?in_map_if, ?in_map_emit, ?andb_true_iff, ?orb_true_iff,
    ?Nat.ltb_lt, ?Nat.leb_le, ?Nat.eqb_eq;
  cbn [s2 btype bond_xy bond_xyt bond0].

(** Target lists as conditions *)
Lemma square_targets Nx Ny yp n b : 1 <= Ny ->
  In b (map s2 (square_body Nx Ny yp n)) <->
  ((n - 1) / Ny + 1 < Nx /\ b = n + Ny) \/
  (1 < Ny /\ (n - 1) mod Ny + 1 < Ny /\ b = n + 1) \/
  (1 < Ny /\ yp = true /\ (n - 1) mod Ny + 1 = 1 /\ b = n + Ny - 1).
Proof.
  intros Hy. unfold square_body. simp_in. tauto.
Qed.

Lemma tri_targets Nx Ny yp n b : 1 <= Ny ->
  In b (map s2 (tri_body Nx Ny yp n)) <->
  ((n - 1) / Ny + 1 < Nx /\ b = n + Ny) \/
  (1 < Ny /\ n + 1 <= Nx * Ny /\ ((n - 1) mod Ny + 1 < Ny \/ yp = true) /\ b = n + 1) \/
  (1 < Ny /\ yp = true /\ (n - 1) mod Ny + 1 = 1 /\ b = n + Ny - 1) \/
  (1 < Ny /\ (n - 1) / Ny + 1 < Nx /\ (n - 1) mod Ny + 1 < Ny /\ b = n + Ny + 1).
Proof.
  intros Hy. unfold tri_body. simp_in. tauto.
Qed.

Lemma squareNN_targets Nx Ny yp n b t : 1 <= Ny ->
  In b (map s2 (filter (fun e => btype e =? t) (squareNN_body Nx Ny yp n))) <->
  (t = 1 /\ (((n - 1) / Ny + 1 < Nx /\ b = n + Ny) \/
             (1 < Ny /\ (n - 1) mod Ny + 1 < Ny /\ b = n + 1) \/
             (1 < Ny /\ yp = true /\ (n - 1) mod Ny + 1 = 1 /\ b = n + Ny - 1))) \/
  (t = 2 /\ 1 < Ny /\ (n - 1) / Ny + 1 < Nx /\
     (((n - 1) mod Ny + 1 < Ny /\ b = n + Ny + 1) \/
      (1 < (n - 1) mod Ny + 1 /\ b = n + Ny - 1) \/
      (yp = true /\ (n - 1) mod Ny + 1 = Ny /\ b = n + 1) \/
      (yp = true /\ (n - 1) mod Ny + 1 = 1 /\ b = n + 2 * Ny - 1))).
Proof.
  intros Hy. unfold squareNN_body.
  assert (HF : forall c e, filter (fun e => btype e =? t) (emit c e) = emit (c && (btype e =? t)) e).
  { intros c e. unfold emit. destruct c; simpl; auto. }
  assert (HI : forall (c : bool) (l : list LatticeBond), filter (fun e => btype e =? t) (if c then l else []) = if c then filter (fun e => btype e =? t) l else []).
  { intros [] l; auto. }
  rewrite !filter_app, !HI, !filter_app, !HF. cbn [btype bond_xyt]. simp_in.
  assert (E1 : 1 = t <-> t = 1) by (split; auto). assert (E2 : 2 = t <-> t = 2) by (split; auto).
  rewrite E1, E2. tauto.
Qed.

(** ** Sums over the loop *)
Definition suml (f : nat -> nat) (l : list nat) : nat := fold_right (fun n s => f n + s) 0 l.

Lemma suml_app f l1 l2 : suml f (l1 ++ l2) = suml f l1 + suml f l2.
Proof. induction l1; simpl; lia. Qed.
Lemma suml_plus f g l : suml (fun n => f n + g n) l = suml f l + suml g l.
Proof. induction l; simpl; lia. Qed.
Lemma suml_ext f g l : (forall n, In n l -> f n = g n) -> suml f l = suml g l.
Proof.
  induction l as [|a l IH]; simpl; intros H; [reflexivity|]. rewrite IH by (intros; apply H; right; assumption). rewrite (H a); [reflexivity|left; reflexivity].
Qed.
Lemma suml_const c l : suml (fun _ => c) l = c * length l.
Proof. induction l; simpl; lia. Qed.
Lemma flat_map_len {B} (f : nat -> list B) l : length (flat_map f l) = suml (fun n => length (f n)) l.
Proof. induction l; simpl; auto. rewrite app_length. lia. Qed.
Lemma suml_map (f g : nat -> nat) l : suml f (map g l) = suml (fun n => f (g n)) l.
Proof. induction l; simpl; auto. Qed.
Lemma seq_shift' a n : seq a n = map (fun y => a + y) (seq 0 n).
Proof.
  revert a. induction n as [|n IH]; intros a; simpl; auto. f_equal; [lia|].
  rewrite IH, <- seq_shift, !map_map. apply map_ext. intros; lia.
Qed.

(** sum over sites = sum over columns of sums over rows *)
Lemma suml_grid (f : nat -> nat -> nat) Nx Ny : 1 <= Ny ->
  suml (fun n => f ((n - 1) / Ny + 1) ((n - 1) mod Ny + 1)) (seq 1 (Nx * Ny)) =
  suml (fun x => suml (f x) (seq 1 Ny)) (seq 1 Nx).
Proof.
  intros Hy. induction Nx as [|X IH]; [reflexivity|].
  replace (S X * Ny) with (X * Ny + Ny) by lia. rewrite seq_app, suml_app, IH.
  rewrite seq_S, suml_app. simpl (suml _ [1 + X]). rewrite Nat.add_0_r. f_equal.
  rewrite (seq_shift' (1 + X * Ny)), (seq_shift' 1 Ny), !suml_map. apply suml_ext.
  intros y Hiny. apply in_seq in Hiny.
  replace (1 + X * Ny + y - 1) with (y + X * Ny) by lia.
  rewrite Nat.div_add, Nat.mod_add, Nat.div_small, Nat.mod_small by lia. f_equal; lia.
Qed.

Definition ind (b : bool) : nat := if b then 1 else 0.

Lemma emit_len c b : length (emit c b) = ind c.
Proof. destruct c; auto. Qed.

Lemma sum_lt N : 1 <= N -> suml (fun y => ind (y <? N)) (seq 1 N) = N - 1.
Proof.
  intros HN. destruct N as [|N]; [lia|]. rewrite seq_S, suml_app.
  rewrite (suml_ext _ (fun _ => 1)).
  - rewrite suml_const, seq_length. simpl. destruct (Nat.ltb_spec (S N) (S N)); simpl; lia.
  - intros n Hn. apply in_seq in Hn. destruct (Nat.ltb_spec n (S N)); simpl; lia.
Qed.
Lemma sum_eq1 N : 1 <= N -> suml (fun y => ind (y =? 1)) (seq 1 N) = 1.
Proof.
  intros HN. destruct N as [|N]; [lia|]. simpl. rewrite (suml_ext _ (fun _ => 0)).
  - rewrite suml_const. lia.
  - intros n Hn. apply in_seq in Hn. destruct (Nat.eqb_spec n 1); simpl; lia.
Qed.
Lemma suml_scale c f l : suml (fun n => c * f n) l = c * suml f l.
Proof. induction l; simpl; lia. Qed.

Section Counts.
Variables Nx Ny : nat.
Hypothesis Hx : 1 <= Nx.
Hypothesis Hy : 1 <= Ny.
Let X n := (n - 1) / Ny + 1.
Let Y n := (n - 1) mod Ny + 1.

Lemma count_right : suml (fun n => ind (X n <? Nx)) (seq 1 (Nx * Ny)) = (Nx - 1) * Ny.
Proof.
  unfold X. rewrite (suml_grid (fun x y => ind (x <? Nx))) by auto.
  rewrite (suml_ext _ (fun x => Ny * ind (x <? Nx))).
  - rewrite suml_scale, sum_lt by auto. lia.
  - intros x _. rewrite suml_const, seq_length. lia.
Qed.
Lemma count_up : suml (fun n => ind (Y n <? Ny)) (seq 1 (Nx * Ny)) = Nx * (Ny - 1).
Proof.
  unfold Y. rewrite (suml_grid (fun x y => ind (y <? Ny))) by auto.
  rewrite (suml_ext _ (fun _ => Ny - 1)) by (intros; apply sum_lt; auto).
  rewrite suml_const, seq_length. lia.
Qed.
Lemma count_first : suml (fun n => ind (Y n =? 1)) (seq 1 (Nx * Ny)) = Nx.
Proof.
  unfold Y. rewrite (suml_grid (fun x y => ind (y =? 1))) by auto.
  rewrite (suml_ext _ (fun _ => 1)) by (intros; apply sum_eq1; auto).
  rewrite suml_const, seq_length. lia.
Qed.
Lemma count_diag : suml (fun n => ind ((X n <? Nx) && (Y n <? Ny))) (seq 1 (Nx * Ny)) = (Nx - 1) * (Ny - 1).
Proof.
  unfold X, Y. rewrite (suml_grid (fun x y => ind ((x <? Nx) && (y <? Ny)))) by auto.
  rewrite (suml_ext _ (fun x => (Ny - 1) * ind (x <? Nx))).
  - rewrite suml_scale, sum_lt by auto. lia.
  - intros x _. destruct (x <? Nx); cbn [andb ind].
    + rewrite sum_lt by auto. lia.
    + rewrite suml_const. lia.
Qed.
Lemma count_next : suml (fun n => ind (n + 1 <=? Nx * Ny)) (seq 1 (Nx * Ny)) = Nx * Ny - 1.
Proof.
  rewrite (suml_ext _ (fun n => ind (n <? Nx * Ny))).
  - apply sum_lt. nia.
  - intros n _. destruct (Nat.leb_spec (n + 1) (Nx * Ny)), (Nat.ltb_spec n (Nx * Ny)); simpl; lia.
Qed.

Lemma square_count yp : (yp = true -> 2 < Ny) ->
  Z.of_nat (length (flat_map (square_body Nx Ny yp) (seq 1 (Nx * Ny)))) =
  (2 * Z.of_nat (Nx * Ny) - Z.of_nat Ny + (if yp then 0 else - Z.of_nat Nx))%Z.
Proof.
  intros Hyp. rewrite flat_map_len. destruct (Nat.ltb_spec 1 Ny) as [Hy1|Hy1].
  - destruct yp.
    + rewrite (suml_ext _ (fun n => ind (X n <? Nx) + (ind (Y n <? Ny) + ind (Y n =? 1)))).
      2:{ intros n _. unfold square_body. apply Nat.ltb_lt in Hy1. rewrite Hy1. rewrite !app_length, !emit_len. reflexivity. }
      rewrite !suml_plus, count_right, count_up, count_first. nia.
    + rewrite (suml_ext _ (fun n => ind (X n <? Nx) + ind (Y n <? Ny))).
      2:{ intros n _. unfold square_body. apply Nat.ltb_lt in Hy1. rewrite Hy1. rewrite !app_length, !emit_len. cbn [andb ind]. fold (X n) (Y n). lia. }
      rewrite !suml_plus, count_right, count_up. nia.
  - assert (Ny = 1) by lia. destruct yp; [specialize (Hyp eq_refl); lia|].
    rewrite (suml_ext _ (fun n => ind (X n <? Nx))).
    2:{ intros n _. unfold square_body. apply Nat.ltb_ge in Hy1. rewrite Hy1. rewrite !app_length, !emit_len. cbn [length]. unfold X. lia. }
    rewrite count_right. nia.
Qed.

Lemma tri_count yp : (yp = true -> 2 < Ny) ->
  Z.of_nat (length (flat_map (tri_body Nx Ny yp) (seq 1 (Nx * Ny)))) =
  (3 * Z.of_nat (Nx * Ny) - 2 * Z.of_nat Ny + (if yp then 0 else - 2 * Z.of_nat Nx + 1))%Z.
Proof.
  intros Hyp. rewrite flat_map_len. destruct (Nat.ltb_spec 1 Ny) as [Hy1|Hy1].
  - destruct yp.
    + rewrite (suml_ext _ (fun n => ind (X n <? Nx) + (ind (n + 1 <=? Nx * Ny) + (ind (Y n =? 1) + ind ((X n <? Nx) && (Y n <? Ny)))))).
      2:{ intros n _. unfold tri_body. apply Nat.ltb_lt in Hy1. rewrite Hy1. rewrite !app_length, !emit_len, orb_true_r, andb_true_r. reflexivity. }
      rewrite !suml_plus, count_right, count_next, count_first, count_diag. nia.
    + rewrite (suml_ext _ (fun n => ind (X n <? Nx) + (ind (Y n <? Ny) + ind ((X n <? Nx) && (Y n <? Ny))))).
      2:{ intros n Hn. apply in_seq in Hn. unfold tri_body. apply Nat.ltb_lt in Hy1. rewrite Hy1. rewrite !app_length, !emit_len, orb_false_r. cbn [andb ind].
          fold (X n) (Y n). replace ((n + 1 <=? Nx * Ny) && (Y n <? Ny))%bool with (Y n <? Ny); [lia|].
          destruct (Nat.ltb_spec (Y n) Ny); [|now rewrite andb_false_r].
          destruct (Nat.leb_spec (n + 1) (Nx * Ny)); auto.
          exfalso. assert (n = Nx * Ny) by lia. unfold Y in H.
          destruct (site_coords Ny Nx Ny) as [_ E]; [lia|lia|]. unfold site in E.
          replace ((Nx - 1) * Ny + Ny) with n in E by nia. lia. }
      rewrite !suml_plus, count_right, count_up, count_diag. nia.
  - assert (Ny = 1) by lia. destruct yp; [specialize (Hyp eq_refl); lia|].
    rewrite (suml_ext _ (fun n => ind (X n <? Nx))).
    2:{ intros n _. unfold tri_body. apply Nat.ltb_ge in Hy1. rewrite Hy1. rewrite !app_length, !emit_len. cbn [length]. unfold X. lia. }
    rewrite count_right. nia.
Qed.
End Counts.

(** ** Membership *)
Definition wrapb (yp : bool) (Ny : nat) := eff_periodic yp Ny.

Lemma wrapb_true yp Ny : eff_periodic yp Ny = true <-> yp = true /\ 2 < Ny.
Proof. unfold eff_periodic. rewrite andb_true_iff, Nat.ltb_lt. tauto. Qed.

Lemma square_edges Nx Ny yp a b : 1 <= Nx -> 1 <= Ny ->
  In (a, b) (ends (flat_map (square_body Nx Ny (eff_periodic yp Ny)) (seq 1 (Nx * Ny)))) <->
  a < b /\ (square_step Nx Ny yp a b \/ square_step Nx Ny yp b a).
Proof.
  intros Hx Hy. rewrite In_ends by apply square_heads. rewrite in_seq, square_targets, wrapb_true by auto.
  split.
  - intros [Ha H]. destruct (grid_point Nx Ny a) as (x & y & G & Ea & EX & EY); [lia|lia|].
    rewrite EX, EY in H. pose proof G as [Gx Gy].
    destruct H as [[H ->]|[(H1 & H2 & ->)|(H1 & (Hp & H2) & H3 & ->)]].
    + split; [lia|]. left. exists x, y, (x + 1), y. repeat split; auto; try lia.
      rewrite site_right by lia. lia.
    + split; [lia|]. left. exists x, y, x, (y + 1). repeat split; auto; try lia.
      * unfold site in *. lia.
      * right. split; auto. left. lia.
    + split; [lia|]. right. exists x, Ny, x, 1. repeat split; auto; try lia.
      * unfold site in *. lia.
      * unfold site in *. lia.
      * right. split; auto. right. repeat split; auto.
  - intros [Hlt [H|H]]; destruct H as (x & y & x' & y' & G & G' & E1 & E2 & H);
      pose proof G as [Gx Gy]; pose proof G' as [Gx' Gy'];
      pose proof (site_range Nx Ny x y G); pose proof (site_range Nx Ny x' y' G').
    + subst a b. split; [lia|]. destruct (site_coords Ny x y) as [-> ->]; [lia|lia|].
      destruct H as [[-> ->]|[-> H]].
      * left. rewrite site_right by lia. lia.
      * destruct H as [[-> H]|(Hp & H2 & -> & ->)].
        -- right; left. unfold site. lia.
        -- exfalso. unfold site in Hlt. lia.
    + subst a b. split; [lia|]. destruct (site_coords Ny x' y') as [-> ->]; [lia|lia|].
      destruct H as [[-> ->]|[-> H]].
      * exfalso. rewrite site_right in Hlt by lia. lia.
      * destruct H as [[-> H]|(Hp & H2 & -> & ->)].
        -- exfalso. unfold site in Hlt. lia.
        -- right; right. unfold site. repeat split; auto; lia.
Qed.

Lemma tri_edges Nx Ny yp a b : 1 <= Nx -> 1 <= Ny ->
  In (a, b) (ends (flat_map (tri_body Nx Ny (eff_periodic yp Ny)) (seq 1 (Nx * Ny)))) <->
  a < b /\ (tri_step Nx Ny yp a b \/ tri_step Nx Ny yp b a).
Proof.
  intros Hx Hy. rewrite In_ends by apply tri_heads. rewrite in_seq, tri_targets, wrapb_true by auto.
  split.
  - intros [Ha H]. destruct (grid_point Nx Ny a) as (x & y & G & Ea & EX & EY); [lia|lia|].
    rewrite EX, EY in H. pose proof G as [Gx Gy].
    destruct H as [[H ->]|[(H1 & H2 & H3 & ->)|[(H1 & (Hp & H2) & H3 & ->)|(H1 & H2 & H3 & ->)]]].
    + split; [lia|]. left. exists x, y, (x + 1), y. repeat split; auto; try lia.
      rewrite site_right by lia. lia.
    + split; [lia|]. left.
      destruct (Nat.eq_dec y Ny) as [->|Hny].
      * destruct H3 as [H3|[Hp H3]]; [lia|].
        assert (x < Nx). { destruct (Nat.eq_dec x Nx) as [->|]; [|lia]. unfold site in Ea. nia. }
        exists x, Ny, (x + 1), 1. repeat split; auto; try lia.
        -- rewrite site_right by lia. unfold site in *. lia.
        -- right; right. split; auto. right. auto.
      * exists x, y, x, (y + 1). repeat split; auto; try lia.
        -- unfold site in *. lia.
        -- right; left. split; auto. left. lia.
    + split; [lia|]. right. exists x, Ny, x, 1. repeat split; auto; try lia.
      * unfold site in *. lia.
      * unfold site in *. lia.
      * right; left. split; auto. right. repeat split; auto.
    + split; [lia|]. left. exists x, y, (x + 1), (y + 1). repeat split; auto; try lia.
      * rewrite site_right by lia. unfold site in *. lia.
      * right; right. split; auto. left. lia.
  - intros [Hlt [H|H]]; destruct H as (x & y & x' & y' & G & G' & E1 & E2 & H);
      pose proof G as [Gx Gy]; pose proof G' as [Gx' Gy'];
      pose proof (site_range Nx Ny x y G) as R; pose proof (site_range Nx Ny x' y' G') as R'.
    + subst a b. split; [lia|]. destruct (site_coords Ny x y) as [-> ->]; [lia|lia|].
      destruct H as [[-> ->]|[[-> H]|[-> H]]].
      * left. rewrite site_right by lia. lia.
      * destruct H as [[-> H]|(Hp & H2 & -> & ->)].
        -- right; left. unfold site in *. lia.
        -- exfalso. unfold site in Hlt. lia.
      * destruct H as [[-> H]|(Hp & H2 & -> & ->)].
        -- right; right; right. rewrite site_right in * by lia. unfold site in *. lia.
        -- right; left. rewrite site_right in * by lia. unfold site in *. repeat split; auto; lia.
    + subst a b. split; [lia|]. destruct (site_coords Ny x' y') as [-> ->]; [lia|lia|].
      destruct H as [[-> ->]|[[-> H]|[-> H]]].
      * exfalso. rewrite site_right in Hlt by lia. lia.
      * destruct H as [[-> H]|(Hp & H2 & -> & ->)].
        -- exfalso. unfold site in Hlt. lia.
        -- right; right; left. unfold site. repeat split; auto; lia.
      * exfalso. rewrite site_right in Hlt by lia. destruct H as [[-> H]|(Hp & H2 & -> & ->)]; unfold site in Hlt; lia.
Qed.

Lemma filter_flat_map {A B} (p : B -> bool) (f : A -> list B) l :
  filter p (flat_map f l) = flat_map (fun a => filter p (f a)) l.
Proof. induction l; simpl; auto. rewrite filter_app. congruence. Qed.

Lemma NN_heads_f Nx Ny yp t : heads (fun n => filter (fun e => btype e =? t) (squareNN_body Nx Ny yp n)).
Proof. intros n b H. apply filter_In in H. eapply squareNN_heads. apply H. Qed.

Lemma NN_edges1 Nx Ny yp a b : 1 <= Nx -> 1 <= Ny ->
  In (a, b) (ends (filter (fun e => btype e =? 1) (squareNextNeighbor Nx Ny yp))) <->
  a < b /\ (square_step Nx Ny yp a b \/ square_step Nx Ny yp b a).
Proof.
  intros Hx Hy. rewrite <- square_edges by auto. unfold squareNextNeighbor. rewrite filter_flat_map.
  rewrite (In_ends _ _ _ _ (NN_heads_f Nx Ny _ 1)), (In_ends _ _ _ _ (square_heads _ _ _)).
  rewrite squareNN_targets, square_targets by auto. intuition discriminate.
Qed.

Lemma NN_edges2 Nx Ny yp a b : 1 <= Nx -> 1 <= Ny ->
  In (a, b) (ends (filter (fun e => btype e =? 2) (squareNextNeighbor Nx Ny yp))) <->
  diag_step Nx Ny yp a b.
Proof.
  intros Hx Hy. unfold squareNextNeighbor. rewrite filter_flat_map.
  rewrite (In_ends _ _ _ _ (NN_heads_f Nx Ny _ 2)). rewrite in_seq, squareNN_targets, wrapb_true by auto.
  split.
  - intros [Ha [[H _]|(_ & H1 & H2 & H)]]; [discriminate|].
    destruct (grid_point Nx Ny a) as (x & y & G & Ea & EX & EY); [lia|lia|].
    rewrite EX, EY in *. pose proof G as [Gx Gy]. unfold diag_step.
    destruct H as [(H & ->)|[(H & ->)|[((Hp & H) & H3 & ->)|((Hp & H) & H3 & ->)]]].
    + exists x, y, (x + 1), (y + 1). repeat split; auto; try lia; try (left; left; lia).
      rewrite site_right by lia. unfold site in *. lia.
    + exists x, y, (x + 1), (y - 1). repeat split; auto; try lia; try (right; left; lia).
      rewrite site_right by lia. unfold site in *. lia.
    + exists x, y, (x + 1), 1. repeat split; auto; try lia; try (left; right; repeat split; auto; lia).
      rewrite site_right by lia. unfold site in *. lia.
    + exists x, y, (x + 1), Ny. repeat split; auto; try lia; try (right; right; repeat split; auto; lia).
      rewrite site_right by lia. unfold site in *. lia.
  - intros (x & y & x' & y' & G & G' & E1 & E2 & Ex & H). pose proof G as [Gx Gy]; pose proof G' as [Gx' Gy'].
    pose proof (site_range Nx Ny x y G) as R. subst a b x'. split; [lia|]. right. split; auto.
    destruct (site_coords Ny x y) as [-> ->]; [lia|lia|]. rewrite site_right by lia.
    destruct H as [[[-> H]|(Hp & H2 & -> & ->)]|[[-> H]|(Hp & H2 & -> & ->)]]; unfold site; (split; [lia|]); (split; [lia|]).
    + left. lia.
    + right; right; left. repeat split; auto; lia.
    + right; left. lia.
    + right; right; right. repeat split; auto; lia.
Qed.

(** ** No bond twice *)
Ltac nd := repeat constructor; simpl; intuition lia.

Lemma square_nodup Nx Ny yp n : 1 <= Ny -> (yp = true -> 2 < Ny) ->
  NoDup (map s2 (square_body Nx Ny yp n)).
Proof.
  intros Hy Hp. unfold square_body. destruct yp; [specialize (Hp eq_refl)|clear Hp].
  - destruct (Nat.ltb_spec ((n - 1) / Ny + 1) Nx), (Nat.ltb_spec 1 Ny), (Nat.ltb_spec ((n - 1) mod Ny + 1) Ny),
      (Nat.eqb_spec ((n - 1) mod Ny + 1) 1); cbn [andb emit map app s2 bond_xy]; nd.
  - destruct (Nat.ltb_spec ((n - 1) / Ny + 1) Nx), (Nat.ltb_spec 1 Ny), (Nat.ltb_spec ((n - 1) mod Ny + 1) Ny);
      cbn [andb emit map app s2 bond_xy]; nd.
Qed.

Lemma tri_nodup Nx Ny yp n : 1 <= Ny -> (yp = true -> 2 < Ny) ->
  NoDup (map s2 (tri_body Nx Ny yp n)).
Proof.
  intros Hy Hp. unfold tri_body. destruct yp; [specialize (Hp eq_refl)|clear Hp].
  - destruct (Nat.ltb_spec ((n - 1) / Ny + 1) Nx), (Nat.ltb_spec 1 Ny), (Nat.ltb_spec ((n - 1) mod Ny + 1) Ny),
      (Nat.leb_spec (n + 1) (Nx * Ny)),
      (Nat.eqb_spec ((n - 1) mod Ny + 1) 1); cbn [andb orb emit map app s2 bond0]; nd.
  - destruct (Nat.ltb_spec ((n - 1) / Ny + 1) Nx), (Nat.ltb_spec 1 Ny), (Nat.ltb_spec ((n - 1) mod Ny + 1) Ny),
      (Nat.leb_spec (n + 1) (Nx * Ny));
      cbn [andb orb emit map app s2 bond0]; nd.
Qed.

Lemma NN_nodup Nx Ny yp n : 1 <= Ny -> (yp = true -> 2 < Ny) ->
  NoDup (map s2 (squareNN_body Nx Ny yp n)).
Proof.
  intros Hy Hp. pose proof (Nat.mod_upper_bound (n - 1) Ny ltac:(lia)) as Hm.
  unfold squareNN_body. destruct yp; [specialize (Hp eq_refl)|clear Hp].
  - destruct (Nat.ltb_spec ((n - 1) / Ny + 1) Nx), (Nat.ltb_spec 1 Ny), (Nat.ltb_spec ((n - 1) mod Ny + 1) Ny),
      (Nat.eqb_spec ((n - 1) mod Ny + 1) 1), (Nat.ltb_spec 1 ((n - 1) mod Ny + 1)),
      (Nat.eqb_spec ((n - 1) mod Ny + 1) Ny); cbn [andb emit map app s2 bond_xyt]; try (exfalso; lia); nd.
  - destruct (Nat.ltb_spec ((n - 1) / Ny + 1) Nx), (Nat.ltb_spec 1 Ny), (Nat.ltb_spec ((n - 1) mod Ny + 1) Ny),
      (Nat.ltb_spec 1 ((n - 1) mod Ny + 1));
      cbn [andb emit map app s2 bond_xyt]; nd.
Qed.

Lemma lists_edges_of L R : NoDup L -> (forall a b, In (a, b) L <-> a < b /\ (R a b \/ R b a)) ->
  (forall a, ~ R a a) -> lists_edges L R.
Proof.
  intros HN HI HR. split; [auto|split].
  - intros a b H1 H2. apply HI in H1. apply HI in H2. lia.
  - intros a b. rewrite !HI. split; [tauto|]. intros H.
    destruct (Nat.lt_trichotomy a b) as [|[->|]]; [tauto| |tauto].
    exfalso. apply (HR b). tauto.
Qed.

Lemma square_irrefl Nx Ny yp a : ~ square_step Nx Ny yp a a.
Proof.
  intros (x & y & x' & y' & [G1 G2] & [G1' G2'] & E1 & E2 & H).
  destruct (site_inj Ny x y x' y'); try lia. subst. destruct H as [|[_ [|(_ & ? & ? & ?)]]]; lia.
Qed.
Lemma tri_irrefl Nx Ny yp a : ~ tri_step Nx Ny yp a a.
Proof.
  intros (x & y & x' & y' & [G1 G2] & [G1' G2'] & E1 & E2 & H).
  destruct (site_inj Ny x y x' y'); try lia. subst. destruct H as [|[[_ [|(_ & ? & ? & ?)]]|]]; lia.
Qed.
