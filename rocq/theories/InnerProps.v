(** C52: inner products and traces of matrix product states and operators are the sums their names say. *)
From Coq Require Import List Arith Bool Lia ZArith Permutation Ring.
From Verif Require Import Util TensorSpec BigSum InnerModel InnerSpec NetProofs ChainProofs InnerProofs InnerOps InnerPairs.
Import ListNotations.
Local Arguments Nat.sub : simpl never.

Section C52.
(** Elements in any commutative ring, with conjugation. *)
Context {R : Type} (r0 r1 : R) (radd rmul rsub : R -> R -> R) (ropp : R -> R) (conj : R -> R).
Context (RT : ring_theory r0 r1 radd rmul rsub ropp eq).
Hypothesis conj0 : conj r0 = r0.
Hypothesis conj1 : conj r1 = r1.
Hypothesis conj_add : forall x y, conj (radd x y) = radd (conj x) (conj y).
Hypothesis conj_mul : forall x y, conj (rmul x y) = rmul (conj x) (conj y).
Hypothesis conj_conj : forall x, conj (conj x) = x.
Add Ring RRinp : RT.
Notation mps := (mps R).
Notation amplitude := (amplitude r0 r1 radd rmul).
Notation element := (element r0 r1 radd rmul).
Notation applied := (applied r0 r1 radd rmul).
Notation over := (over r0 radd).
Notation "x + y" := (radd x y). Notation "x * y" := (rmul x y). Notation "x - y" := (rsub x y).

(** innerC(x,y) is the sum of conj(x_c) y_c over all configurations c of the sites.  x and y may have
    different site indices, or the same, and may share link indices. *)
Theorem C52_inner k (x y : mps) sx lx sy ly : is_mps x sx lx -> is_mps y sy ly -> map ixdim sy = map ixdim sx -> disjoint sy lx ->
  used_below k (lx ++ sy ++ ly) ->
  innerC r0 radd rmul conj k x y = Ok (over sy (fun c => conj (amplitude x sx lx c) * amplitude y sy ly c)).
Proof. exact (inner_spec r0 r1 radd rmul rsub ropp conj RT conj0 conj1 conj_add conj_mul k x y sx lx sy ly). Qed.

(** innerC(x,A,y) = <x|A|y> *)
Theorem C52_inner_mpo k (x A y : mps) sx lx ins outs lA ly : is_mps x sx lx -> is_mpo A ins outs lA -> is_mps y ins ly ->
  map ixdim outs = map ixdim sx -> disjoint ly (outs ++ lA) -> disjoint outs lx -> used_below k (lx ++ ins ++ outs ++ lA ++ ly) ->
  innerMPO r0 radd rmul conj k x A y = Ok (over outs (fun c' => conj (amplitude x sx lx c') * applied A ins outs lA y ly c')).
Proof. exact (innerMPO_spec r0 r1 radd rmul rsub ropp conj RT conj0 conj1 conj_add conj_mul k x A y sx lx ins outs lA ly). Qed.

(** innerC(A,x,B,y) = <Ax|By> for two or more sites.  x and y may be on the same sites. *)
Theorem C52_inner_AxBy k (A x B y : mps) sx lx sy ly t lA lB : is_mps x sx lx -> is_mpo A sx t lA -> is_mpo B sy t lB -> is_mps y sy ly ->
  2 <= length y -> disjoint ly (t ++ lB) -> disjoint lx t -> disjoint sx (ly ++ lB) -> used_below k (lx ++ sx ++ sy ++ t ++ lA ++ lB ++ ly) ->
  innerAxBy r0 radd rmul conj k A x B y = Ok (over t (fun c' => conj (applied A sx t lA x lx c') * applied B sy t lB y ly c')).
Proof. exact (innerAxBy_spec r0 r1 radd rmul rsub ropp conj RT conj0 conj1 conj_add conj_mul k A x B y sx lx sy ly t lA lB). Qed.

(** innerC(x,A,B,y) = <x|A B|y> for two or more sites, when B maps sy to t and A maps t to w. *)
Theorem C52_inner_xABy k (x A B y : mps) sx lx sy t w lA lB ly : is_mps x sx lx -> is_mpo B sy t lB -> is_mpo A t w lA -> is_mps y sy ly ->
  2 <= length y -> map ixdim w = map ixdim sx -> disjoint ly (t ++ lB) -> used_below k (lx ++ sy ++ t ++ w ++ lA ++ lB ++ ly) ->
  innerxABy r0 radd rmul conj k x A B y =
    Ok (over w (fun d => conj (amplitude x sx lx d) * over t (fun c' => element A t w lA c' d * applied B sy t lB y ly c'))).
Proof. exact (innerxABy_spec r0 r1 radd rmul rsub ropp conj RT conj0 conj1 conj_add conj_mul k x A B y sx lx sy t w lA lB ly). Qed.

(** traceC(A) *)
Theorem C52_trace (A : mps) ins outs lA : is_mpo A ins outs lA -> map ixdim ins = map ixdim outs ->
  traceC r0 r1 radd rmul A = Ok (over ins (fun c => element A ins outs lA c c)).
Proof. exact (traceC_spec r0 r1 radd rmul rsub ropp RT A ins outs lA). Qed.

(** traceC(A,B): the trace of the product, A from a to s and B from s to b. *)
Theorem C52_trace_product k (A B : mps) a s b lA lB : is_mpo A a s lA -> is_mpo B s b lB -> length A = length B -> map ixdim b = map ixdim a ->
  disjoint a (b ++ lB) -> disjoint b lA -> used_below k (a ++ s ++ b ++ lA ++ lB) ->
  traceC2 r0 radd rmul k A B = Ok (over a (fun c => over s (fun d => element A a s lA c d * element B s b lB d c))).
Proof. exact (traceC2_spec r0 r1 radd rmul rsub ropp RT k A B a s b lA lB). Qed.

(** innerC(y,x) is the conjugate of innerC(x,y). *)
Theorem C52_inner_symmetric k (x y : mps) sx lx sy ly : is_mps x sx lx -> is_mps y sy ly -> map ixdim sy = map ixdim sx -> disjoint sy lx -> disjoint sx ly ->
  used_below k (lx ++ sx ++ sy ++ ly) ->
  exists z, innerC r0 radd rmul conj k x y = Ok z /\ innerC r0 radd rmul conj k y x = Ok (conj z).
Proof.
  intros HX HY D D1 D2 U. eexists. split.
  - apply (C52_inner k x y sx lx sy ly); auto. intros e He. apply U. rewrite !in_app_iff in *. tauto.
  - rewrite (C52_inner k y x sy ly sx lx) by (auto; intros e He; apply U; rewrite !in_app_iff in *; tauto). f_equal.
    rewrite <- (over_conj r0 radd conj conj0 conj_add). unfold InnerSpec.over. rewrite D. apply csum_ext. intros c _. rewrite conj_mul, conj_conj. ring.
Qed.

(** errorMPOProd(y,A,x) (mpo.cc:791-802) is the square root of |1 + (<y|y> - 2 Re<y|A|x>) / <Ax|Ax>|.
    Times <Ax|Ax>, that is the squared distance between y and A x. *)
Theorem C52_error k (x A y : mps) sx lx t lA sy ly : is_mps x sx lx -> is_mpo A sx t lA -> is_mps y sy ly -> map ixdim t = map ixdim sy ->
  2 <= length x -> disjoint sy ly -> disjoint lx (t ++ lA) -> disjoint t ly -> disjoint sx lx -> used_below k (lx ++ sx ++ sy ++ t ++ lA ++ ly) ->
  exists yy yAx AxAx, innerC r0 radd rmul conj k y y = Ok yy /\ innerMPO r0 radd rmul conj k y A x = Ok yAx /\ innerAxBy r0 radd rmul conj k A x A x = Ok AxAx /\
    AxAx + (yy - (yAx + conj yAx)) =
      over t (fun c => conj (amplitude y sy ly c - applied A sx t lA x lx c) * (amplitude y sy ly c - applied A sx t lA x lx c)).
Proof.
  intros HX HA HY D N D1 D2 D3 D4 U.
  pose proof HA as (_ & _ & NA). apply NoDup_app_iff in NA. destruct NA as (_ & _ & NA).
  eexists _, _, _. split; [|split; [|split]].
  - apply (C52_inner k y y sy ly sy ly); auto. intros e He. apply U. rewrite !in_app_iff in *. tauto.
  - apply (C52_inner_mpo k y A x sy ly sx t lA lx); auto. intros e He. apply U. rewrite !in_app_iff in *. tauto.
  - apply (C52_inner_AxBy k A x A x sx lx sx lx t lA lA); auto.
    + intros e He K. apply (D2 e He). apply in_or_app; auto.
    + intros e He K. apply in_app_or in K. destruct K as [K|K]; [apply (D4 e He K)|apply (NA e He); apply in_or_app; auto].
    + intros e He. apply U. rewrite !in_app_iff in *. tauto.
  - assert (cs : forall a b, conj (a - b) = conj a - conj b).
    { intros a b. assert (E : conj (a - b) + conj b = conj a) by (rewrite <- conj_add; f_equal; ring). rewrite <- E. ring. }
    rewrite <- (over_conj r0 radd conj conj0 conj_add). unfold InnerSpec.over. rewrite <- D.
    set (dims := map ixdim t).
    assert (G : forall dims (f g : list nat -> R), csum r0 radd dims (fun c => conj (f c) * f c) + (csum r0 radd dims (fun c => conj (g c) * g c) -
      (csum r0 radd dims (fun c => conj (g c) * f c) + csum r0 radd dims (fun c => conj (conj (g c) * f c)))) = csum r0 radd dims (fun c => conj (g c - f c) * (g c - f c))).
    { clear -RT conj_mul conj_conj cs. induction dims as [|n dims IH]; intros f g; cbn [csum].
      - rewrite cs, conj_mul, conj_conj. ring.
      - transitivity (bsum r0 radd n (fun i => csum r0 radd dims (fun c => conj (g (i :: c) - f (i :: c)) * (g (i :: c) - f (i :: c))))); [|reflexivity].
        rewrite <- (bsum_ext r0 radd n _ _ (fun i _ => IH (fun c => f (i :: c)) (fun c => g (i :: c)))). clear IH.
        induction n as [|n IH]; cbn [bsum]; [ring|]. rewrite <- IH. ring. }
    exact (G dims (applied A sx t lA x lx) (amplitude y sy ly)).
Qed.
End C52.

(** ** Gaussian integers *)
Definition G := (Z * Z)%type.
Definition ga (x y : G) : G := (fst x + fst y, snd x + snd y)%Z.
Definition gm (x y : G) : G := (fst x * fst y - snd x * snd y, fst x * snd y + snd x * fst y)%Z.
Definition gn (x : G) : G := (- fst x, - snd x)%Z.
Definition gc (x : G) : G := (fst x, - snd x)%Z.
Definition g0 : G := (0, 0)%Z.
Definition g1 : G := (1, 0)%Z.
Lemma gring : ring_theory g0 g1 ga gm (fun x y => ga x (gn y)) gn eq.
Proof. constructor; intros; repeat match goal with x : G |- _ => destruct x end; unfold ga, gm, gn, g0, g1; cbn [fst snd]; auto; f_equal; ring. Qed.
Example C52_gauss_conj : gc g0 = g0 /\ gc g1 = g1 /\ (forall x y, gc (ga x y) = ga (gc x) (gc y)) /\ (forall x y, gc (gm x y) = gm (gc x) (gc y)) /\ forall x, gc (gc x) = x.
Proof. repeat split; intros; repeat match goal with x : G |- _ => destruct x end; unfold ga, gm, gc; cbn [fst snd]; f_equal; ring. Qed.

(** Site s_n has id n, s_n' the same id and prime level 1; the link of x has id 11, of A id 12. *)
Definition st n l := mkIx n l 2.
Definition lx1 := mkIx 11 0 2.
Definition la1 := mkIx 12 0 2.
Definition ex_x : mps G :=
  [mkNT [st 1 0; lx1] (fun s => (Z.of_nat (1 + s (st 1 0)), Z.of_nat (s lx1))); mkNT [lx1; st 2 0] (fun s => (Z.of_nat (s lx1), Z.of_nat (2 + s (st 2 0))))].
Definition op (l : nat) : mps G :=
  [mkNT [st 1 (S l); st 1 l; la1] (fun s => (Z.of_nat (s (st 1 (S l)) + 2 * s (st 1 l)), Z.of_nat (s la1)));
   mkNT [la1; st 2 l; st 2 (S l)] (fun s => (Z.of_nat (s la1 + s (st 2 l)), Z.of_nat (s (st 2 (S l)))))].
Ltac nodups := repeat (constructor; [cbn; intuition discriminate|]); constructor.
Ltac deps := intros s t E; cbn [nel]; rewrite ?E by (cbn; auto); reflexivity.
Lemma ex_is_mps : is_mps ex_x [st 1 0; st 2 0] [lx1].
Proof. split; [|nodups]. cbn. split; [deps|]. split; [auto|]. split; [auto|]. split; [deps|auto]. Qed.
Lemma ex_is_mpo l : is_mpo (op l) [st 1 l; st 2 l] [st 1 (S l); st 2 (S l)] [la1].
Proof.
  split; [auto|]. split.
  - cbn. split; [deps|]. split; [apply perm_swap|]. split; [auto|]. split; [deps|auto].
  - repeat (constructor; [cbn; unfold st, la1; intros K; repeat (destruct K as [K|K]; [injection K; intros; lia|]); exact K|]). constructor.
Qed.
(** The hypotheses are met, and the values are not trivial.  A maps s to s', B maps s' to s''. *)
Example C52_nonvacuous :
  is_mps ex_x [st 1 0; st 2 0] [lx1] /\ is_mpo (op 0) [st 1 0; st 2 0] [st 1 1; st 2 1] [la1] /\ is_mpo (op 1) [st 1 1; st 2 1] [st 1 2; st 2 2] [la1] /\
  disjoint [lx1] [st 1 1; st 2 1; la1] /\ disjoint [st 1 0; st 2 0] [lx1; la1] /\
  used_below 20 [lx1; st 1 0; st 2 0; st 1 1; st 2 1; st 1 2; st 2 2; la1] /\
  (exists z, innerC g0 ga gm gc 20 ex_x ex_x = Ok z /\ z <> g0) /\ (exists z, innerMPO g0 ga gm gc 20 ex_x (op 0) ex_x = Ok z /\ z <> gc z) /\
  (exists z, innerAxBy g0 ga gm gc 20 (op 0) ex_x (op 0) ex_x = Ok z /\ z <> g0) /\ (exists z, innerxABy g0 ga gm gc 20 ex_x (op 1) (op 0) ex_x = Ok z /\ z <> gc z) /\
  (exists z, traceC g0 g1 ga gm (op 0) = Ok z /\ z <> g0) /\ (exists z, traceC2 g0 ga gm 20 (op 0) (op 1) = Ok z /\ z <> g0).
Proof.
  split; [exact ex_is_mps|]. split; [exact (ex_is_mpo 0)|]. split; [exact (ex_is_mpo 1)|].
  split; [intros e [<-|[]] K; cbn in K; intuition discriminate|]. split; [intros e [<-|[<-|[]]] K; cbn in K; intuition discriminate|].
  split; [intros e K; cbn in K; repeat (destruct K as [<-|K]; [cbn; lia|]); contradiction|].
  repeat split; eexists; (split; [vm_compute; reflexivity|vm_compute; discriminate]).
Qed.

(** ** Refuted *)
(** <Ax|By> and <x|AB|y> on one site: the only tensor is multiplied in twice, so the square comes out. *)
Definition one_mps (a b : Z) : mps G := [mkNT [st 1 0] (fun s => if s (st 1 0) =? 0 then (a, 0%Z) else (b, 0%Z))].
Definition one_id (l : nat) : mps G := [mkNT [st 1 (S l); st 1 l] (fun s => if s (st 1 l) =? s (st 1 (S l)) then g1 else g0)].
Theorem C52_one_site_refuted : exists (x A B : mps G) sx t w, is_mps x sx [] /\ is_mpo A sx t [] /\ is_mpo B t w [] /\
  over g0 ga t (fun c => gm (gc (applied g0 g1 ga gm A sx t [] x [] c)) (applied g0 g1 ga gm A sx t [] x [] c)) = (5, 0)%Z /\
  innerAxBy g0 ga gm gc 20 A x A x = Ok (25, 0)%Z /\
  over g0 ga w (fun d => gm (gc (amplitude g0 g1 ga gm x sx [] d)) (over g0 ga t (fun c => gm (element g0 g1 ga gm B t w [] c d) (applied g0 g1 ga gm A sx t [] x [] c)))) = (5, 0)%Z /\
  innerxABy g0 ga gm gc 20 x B A x = Ok (25, 0)%Z.
Proof.
  exists (one_mps 1 2), (one_id 0), (one_id 1), [st 1 0], [st 1 1], [st 1 2].
  split; [split; [cbn; split; [auto|]; split; [deps|auto]|nodups]|].
  split; [split; [auto|]; split; [cbn; split; [auto|]; split; [deps|apply perm_swap]|nodups]|].
  split; [split; [auto|]; split; [cbn; split; [auto|]; split; [deps|apply perm_swap]|nodups]|].
  repeat split; vm_compute; reflexivity.
Qed.
(** <Ax|By> when A and B have different output indices: the matched copy of A is not used, and the
    call fails. *)
Theorem C52_unmatched_refuted : exists (x A B y : mps G) sx lx sy ly ta tb lA lB, is_mps x sx lx /\ is_mpo A sx ta lA /\ is_mpo B sy tb lB /\ is_mps y sy ly /\
  2 <= length y /\ map ixdim ta = map ixdim tb /\ disjoint ly (tb ++ lB) /\ disjoint lx (ta ++ tb) /\ disjoint sx (ly ++ lB) /\
  used_below 20 (lx ++ sx ++ sy ++ ta ++ tb ++ lA ++ lB ++ ly) /\ innerAxBy g0 ga gm gc 20 A x B y = Err.
Proof.
  set (B := [mkNT [st 1 5; st 1 0; la1] (fun s => (Z.of_nat (s (st 1 5)), Z.of_nat (s la1))); mkNT [la1; st 2 0; st 2 5] (fun s => (Z.of_nat (s (st 2 5)), Z.of_nat (s la1)))] : mps G).
  exists ex_x, (op 0), B, ex_x, [st 1 0; st 2 0], [lx1], [st 1 0; st 2 0], [lx1], [st 1 1; st 2 1], [st 1 5; st 2 5], [la1], [la1].
  split; [exact ex_is_mps|]. split; [exact (ex_is_mpo 0)|].
  split. { split; [auto|]. split; [|nodups]. cbn. split; [deps|]. split; [apply perm_swap|]. split; [auto|]. split; [deps|auto]. }
  split; [exact ex_is_mps|]. split; [cbn; lia|]. split; [reflexivity|].
  split; [intros e [<-|[]] K; cbn in K; intuition discriminate|]. split; [intros e [<-|[]] K; cbn in K; intuition discriminate|]. split; [intros e [<-|[<-|[]]] K; cbn in K; intuition discriminate|].
  split; [intros e K; cbn in K; repeat (destruct K as [<-|K]; [cbn; lia|]); contradiction|]. vm_compute. reflexivity.
Qed.
(** <x|AB|y> when A and B both map s to s' (two operators on the same sites): the result is <x|A^T B|y>.  Here
    A B y and A^T B y differ. *)
Theorem C52_same_indices_refuted : exists (x A B : mps G) s s' lx l, is_mps x s lx /\ is_mpo A s s' l /\ is_mpo B s s' l /\
  disjoint lx (s' ++ l) /\ used_below 20 (lx ++ s ++ s' ++ l) /\
  innerxABy g0 ga gm gc 20 x A B x <>
    Ok (over g0 ga s' (fun d => gm (gc (amplitude g0 g1 ga gm x s lx d)) (over g0 ga s (fun c' => gm (element g0 g1 ga gm A s s' l c' d) (applied g0 g1 ga gm B s s' l x lx c'))))).
Proof.
  exists ex_x, (op 0), (op 0), [st 1 0; st 2 0], [st 1 1; st 2 1], [lx1], [la1].
  split; [exact ex_is_mps|]. split; [exact (ex_is_mpo 0)|]. split; [exact (ex_is_mpo 0)|].
  split; [intros e [<-|[]] K; cbn in K; intuition discriminate|]. split; [intros e K; cbn in K; repeat (destruct K as [<-|K]; [cbn; lia|]); contradiction|].
  vm_compute. discriminate.
Qed.

Print Assumptions C52_inner.
Print Assumptions C52_inner_mpo.
Print Assumptions C52_inner_AxBy.
Print Assumptions C52_inner_xABy.
Print Assumptions C52_trace.
Print Assumptions C52_trace_product.
Print Assumptions C52_inner_symmetric.
Print Assumptions C52_error.
Print Assumptions C52_one_site_refuted.
Print Assumptions C52_unmatched_refuted.
Print Assumptions C52_same_indices_refuted.
