(** Property C43: lattice bond lists. *)
From Coq Require Import List ZArith Arith Bool Lia.
From Verif Require Import Util LatticeModel LatticeSpec LatticeProofs.
Import ListNotations.

(** squareLattice never aborts and lists every nearest-neighbour bond exactly once. *)
Theorem C43_square_lattice : forall Nx Ny yp, 1 <= Nx -> 1 <= Ny ->
  exists L, squareLattice Nx Ny yp = Ok L /\ lists_edges (ends L) (square_step Nx Ny yp).
Proof.
  intros Nx Ny yp Hx Hy. unfold squareLattice.
  assert (Hp : eff_periodic yp Ny = true -> 2 < Ny) by (rewrite wrapb_true; tauto).
  rewrite square_count, Z.eqb_refl by auto. cbn [negb]. eexists; split; [reflexivity|].
  apply lists_edges_of.
  - apply NoDup_ends; [apply square_heads|apply seq_NoDup|]. intros n _. now apply square_nodup.
  - intros a b. now apply square_edges.
  - apply square_irrefl.
Qed.

(** triangularLattice likewise. *)
Theorem C43_triangular_lattice : forall Nx Ny yp, 1 <= Nx -> 1 <= Ny ->
  exists L, triangularLattice Nx Ny yp = Ok L /\ lists_edges (ends L) (tri_step Nx Ny yp).
Proof.
  intros Nx Ny yp Hx Hy. unfold triangularLattice.
  assert (Hp : eff_periodic yp Ny = true -> 2 < Ny) by (rewrite wrapb_true; tauto).
  rewrite tri_count, Z.eqb_refl by auto. cbn [negb]. eexists; split; [reflexivity|].
  apply lists_edges_of.
  - apply NoDup_ends; [apply tri_heads|apply seq_NoDup|]. intros n _. now apply tri_nodup.
  - intros a b. now apply tri_edges.
  - apply tri_irrefl.
Qed.

(** squareNextNeighbor: the bonds of type "1" are the nearest-neighbour bonds, those of
    type "2" the diagonal ones; there are no others and none is listed twice. *)
Theorem C43_square_next_neighbor : forall Nx Ny yp, 1 <= Nx -> 1 <= Ny ->
  let L := squareNextNeighbor Nx Ny yp in
  lists_edges (ends (filter (fun b => btype b =? 1) L)) (square_step Nx Ny yp) /\
  (forall a b, In (a, b) (ends (filter (fun b => btype b =? 2) L)) <-> diag_step Nx Ny yp a b) /\
  NoDup (ends L) /\ (forall e, In e L -> btype e = 1 \/ btype e = 2).
Proof.
  intros Nx Ny yp Hx Hy L. subst L.
  assert (Hp : eff_periodic yp Ny = true -> 2 < Ny) by (rewrite wrapb_true; tauto).
  assert (HN : NoDup (ends (squareNextNeighbor Nx Ny yp))).
  { apply NoDup_ends; [apply squareNN_heads|apply seq_NoDup|]. intros n _. now apply NN_nodup. }
  split; [|split; [|split; auto]].
  - apply lists_edges_of.
    + revert HN. unfold ends. generalize (squareNextNeighbor Nx Ny yp). intros l.
      induction l as [|e l IH]; simpl; intros H; [constructor|]. inversion H; subst.
      destruct (btype e =? 1); simpl; auto. constructor; auto.
      intros Hin. apply H2. apply in_map_iff in Hin as (e' & E & He'). apply in_map_iff. exists e'.
      apply filter_In in He'. tauto.
    + intros a b. now apply NN_edges1.
    + apply square_irrefl.
  - intros a b. now apply NN_edges2.
  - intros e He. apply in_flat_map in He as (n & _ & He). unfold squareNN_body in He.
    repeat (rewrite ?in_app_iff, ?in_emit in He;
          match type of He with
          | In _ (if ?c then _ else _) => destruct c; [|destruct He]
          | _ \/ _ => destruct He as [He|He]
          | _ /\ _ => destruct He as [_ ->]; simpl; auto; fail
          | In _ [] => destruct He
          end).
Qed.

(** Every bond of the three lists connects sites of the lattice. *)
Theorem C43_sites_in_range : forall Nx Ny yp e, 1 <= Nx -> 1 <= Ny ->
  (exists L, squareLattice Nx Ny yp = Ok L /\ In e L) \/
  (exists L, triangularLattice Nx Ny yp = Ok L /\ In e L) \/
  In e (squareNextNeighbor Nx Ny yp) ->
  1 <= s1 e <= Nx * Ny /\ 1 <= s2 e <= Nx * Ny.
Proof.
  intros Nx Ny yp e Hx Hy H.
  assert (R : forall a b, square_step Nx Ny yp a b \/ diag_step Nx Ny yp a b \/ tri_step Nx Ny yp a b ->
    1 <= a <= Nx * Ny /\ 1 <= b <= Nx * Ny).
  { intros a b [K|[K|K]]; destruct K as (x & y & x' & y' & G & G' & -> & -> & _);
      split; apply site_range; auto. }
  assert (I : forall l, In e l -> In (s1 e, s2 e) (ends l)).
  { intros l Hl. unfold ends. apply in_map_iff. eauto. }
  destruct H as [(L & E & H)|[(L & E & H)|H]].
  - destruct (C43_square_lattice Nx Ny yp Hx Hy) as (L' & E' & _ & _ & HE). rewrite E in E'. injection E' as <-.
    destruct (proj1 (HE (s1 e) (s2 e)) (or_introl (I L H))) as [K|K]; destruct (R _ _ (or_introl K)); tauto.
  - destruct (C43_triangular_lattice Nx Ny yp Hx Hy) as (L' & E' & _ & _ & HE). rewrite E in E'. injection E' as <-.
    destruct (proj1 (HE (s1 e) (s2 e)) (or_introl (I L H))) as [K|K]; destruct (R _ _ (or_intror (or_intror K))); tauto.
  - destruct (C43_square_next_neighbor Nx Ny yp Hx Hy) as ((_ & _ & HE) & HD & _ & HT).
    destruct (HT e H) as [T|T].
    + assert (F : In e (filter (fun b => btype b =? 1) (squareNextNeighbor Nx Ny yp))).
      { apply filter_In. split; auto. now apply Nat.eqb_eq. }
      destruct (proj1 (HE (s1 e) (s2 e)) (or_introl (I _ F))) as [K|K]; destruct (R _ _ (or_introl K)); tauto.
    + assert (F : In e (filter (fun b => btype b =? 2) (squareNextNeighbor Nx Ny yp))).
      { apply filter_In. split; auto. now apply Nat.eqb_eq. }
      apply (R _ _ (or_intror (or_introl (proj1 (HD _ _) (I _ F))))).
Qed.

(** Coordinates stored in the non-wrapping bonds are those of the two sites ... *)
Theorem C43_coordinates : forall Nx Ny e x y x' y', 1 <= Nx -> 1 <= Ny ->
  (exists L, squareLattice Nx Ny false = Ok L /\ In e L) \/ In e (squareNextNeighbor Nx Ny false) ->
  coords e = Some ((x, y), (x', y')) -> s1 e = site Ny x y /\ s2 e = site Ny x' y'.
Proof.
  intros Nx Ny e x y x' y' Hx Hy H HC.
  assert (K : exists n, 1 <= n <= Nx * Ny /\ (In e (square_body Nx Ny false n) \/ In e (squareNN_body Nx Ny false n))).
  { destruct H as [(L & E & H)|H].
    - unfold squareLattice in E. destruct (negb _); [discriminate|]. inversion E; subst L.
      apply in_flat_map in H as (n & Hn & H). exists n. apply in_seq in Hn. unfold eff_periodic in H. simpl in H.
      split; [lia|auto].
    - apply in_flat_map in H as (n & Hn & H). exists n. apply in_seq in Hn. unfold eff_periodic in H. simpl in H.
      split; [lia|auto]. }
  destruct K as (n & Hn & K). clear H. destruct (grid_point Nx Ny n) as (X & Y & G & En & EX & EY); [lia|lia|].
  destruct G as [Gx Gy]. unfold square_body, squareNN_body in K. rewrite EX, EY in K.
  pose proof (site_right Ny X Y ltac:(lia)) as SR. unfold site in *.
  assert (Z1 : X + 1 - 1 = S (X - 1)) by lia.
  destruct K as [He|He];
    repeat (rewrite ?in_app_iff, ?in_emit in He;
          match type of He with
          | In _ (if ?c then _ else _) => let E := fresh "Ec" in destruct c eqn:E; [|destruct He]
          | _ \/ _ => destruct He as [He|He]
          | (_ && _)%bool = true /\ _ => destruct He as [He' He]; discriminate He'
          | _ = true /\ _ => destruct He as [He' ->]; simpl in HC; inversion HC; subst; simpl; b2p; rewrite ?Z1; simpl; lia
          | In _ [] => destruct He
          end).
Qed.

(** ... but the bond that closes a periodic column carries a second coordinate that is not
    the one of its second site (nor of any image of it: it is off by one row). *)
Theorem C43_periodic_coordinates_refuted :
  exists e L, squareLattice 2 3 true = Ok L /\ In e L /\ s2 e = site 3 1 3 /\
    coords e = Some ((1, 1), (1, 4)).
Proof.
  exists (bond_xy 1 3 1 1 1 4). eexists. split; [vm_compute; reflexivity|].
  repeat split; auto. simpl. tauto.
Qed.

Example C43_nonvacuous :
  exists L, squareLattice 3 3 true = Ok L /\ length L = 15 /\ In (1, 3) (ends L) /\
    (exists T, triangularLattice 3 3 true = Ok T /\ length T = 21).
Proof.
  eexists. split; [vm_compute; reflexivity|]. split; [reflexivity|]. split; [simpl; tauto|].
  eexists. split; vm_compute; reflexivity.
Qed.

Print Assumptions C43_square_lattice.
Print Assumptions C43_triangular_lattice.
Print Assumptions C43_square_next_neighbor.
Print Assumptions C43_sites_in_range.
Print Assumptions C43_coordinates.
Print Assumptions C43_periodic_coordinates_refuted.
