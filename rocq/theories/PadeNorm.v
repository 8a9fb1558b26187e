(** The size of the scaled matrix in expPade, and why its linear system is never singular. *)
From Coq Require Import List Arith Bool ZArith Lia Ring Field Setoid Morphisms.
From Verif Require Import Util BigSum DavSpec DavProofs PadeSpec PadeModel PadeProofs.
Import ListNotations.
Local Open Scope outcome_scope.

Section Norm.
Context {F : Type} (f0 f1 : F) (fadd fmul fsub : F -> F -> F) (fopp : F -> F) (fdiv : F -> F -> F) (finv : F -> F)
  (fltb : F -> F -> bool) (OF : ordered_field f0 f1 fadd fmul fsub fopp fdiv finv fltb).
Context {T : Type} (t0 t1 : T) (tadd tmul tsub : T -> T -> T) (topp : T -> T) (tdiv : T -> T -> T) (tinv : T -> T).
Context (FT : field_theory t0 t1 tadd tmul tsub topp tdiv tinv eq).
Context (tabs : T -> F) (AB : abs_ok f0 fadd fmul fltb t0 t1 tadd tmul tabs f1).
Let FF := of_field _ _ _ _ _ _ _ _ _ OF.
Add Field FFpn : FF.
Add Field FTpn : FT.
Notation le x y := (fltb y x = false).
Notation lt x y := (fltb x y = true).
Let Le_refl := le_refl f0 f1 fadd fmul fsub fopp fdiv finv fltb OF.
Let Lt_le := lt_le f0 f1 fadd fmul fsub fopp fdiv finv fltb OF.
Let Le_cases := le_cases f0 f1 fadd fmul fsub fopp fdiv finv fltb OF.
Let Le_trans := le_trans f0 f1 fadd fmul fsub fopp fdiv finv fltb OF.
Let Le_add := le_add f0 f1 fadd fmul fsub fopp fdiv finv fltb OF.
Let Le_add2 := le_add2 f0 f1 fadd fmul fsub fopp fdiv finv fltb OF.
Let Le_sub := le_sub f0 f1 fadd fmul fsub fopp fdiv finv fltb OF.
Let Mul_nonneg := mul_nonneg f0 f1 fadd fmul fsub fopp fdiv finv fltb OF.
Let Mul_le := mul_le f0 f1 fadd fmul fsub fopp fdiv finv fltb OF.
Let Lt_neq := lt_neq f0 f1 fadd fmul fsub fopp fdiv finv fltb OF.
Let Lt_le_trans := lt_le_trans f0 f1 fadd fmul fsub fopp fdiv finv fltb OF.
Let Lt_mul_pos := lt_mul_pos f0 f1 fadd fmul fsub fopp fdiv finv fltb OF.
Let Lt_trans := of_trans _ _ _ _ _ _ _ _ _ OF.
Let Lt_irrefl := of_irrefl _ _ _ _ _ _ _ _ _ OF.
Let Lt_add := of_add _ _ _ _ _ _ _ _ _ OF.
Let Total := of_total _ _ _ _ _ _ _ _ _ OF.
Notation fN := (ofN f0 f1 fadd). Notation tN := (ofN t0 t1 tadd).
Notation two := (fadd f1 f1).

Lemma le_lt_trans x y z : le x y -> lt y z -> lt x z.
Proof. intros H1 H2. destruct (Le_cases _ _ H1) as [H|<-]; [|assumption]. exact (Lt_trans _ _ _ H H2). Qed.
Lemma one_pos : lt f0 f1.
Proof.
  destruct (fltb f0 f1) eqn:E; [reflexivity|]. exfalso.
  assert (S1 : le f0 (fmul f1 f1)) by apply (sq_nonneg f0 f1 fadd fmul fsub fopp fdiv finv fltb OF).
  replace (fmul f1 f1) with f1 in S1 by ring. apply (F_1_neq_0 FF). symmetry. now apply Total.
Qed.
Lemma fN_add a b : fN (a + b) = fadd (fN a) (fN b).
Proof. induction a as [|a IH]; cbn [Nat.add ofN]; [ring|]. rewrite IH. ring. Qed.
Lemma fN_mul a b : fN (a * b) = fmul (fN a) (fN b).
Proof. induction a as [|a IH]; cbn [Nat.mul ofN]; [ring|]. rewrite fN_add, IH. ring. Qed.
Lemma fN_nonneg a : le f0 (fN a).
Proof.
  induction a as [|a IH]; cbn [ofN]; [apply Le_refl|]. pose proof (Le_add2 _ _ _ _ IH (Lt_le _ _ one_pos)) as H.
  now replace (fadd f0 f0) with f0 in H by ring.
Qed.
Lemma fN_le a b : a <= b -> le (fN a) (fN b).
Proof.
  intros H. replace b with ((b - a) + a) by lia. rewrite fN_add.
  pose proof (Le_add _ _ (fN a) (fN_nonneg (b - a))) as Q. now replace (fadd f0 (fN a)) with (fN a) in Q by ring.
Qed.
Lemma fN_1 : fN 1 = f1. Proof. cbn. ring. Qed.
Lemma fN_2 : fN 2 = two. Proof. cbn. ring. Qed.
Lemma fN_pos a : 1 <= a -> lt f0 (fN a).
Proof. intros H. apply (Lt_le_trans _ (fN 1)); [rewrite fN_1; apply one_pos|]. now apply fN_le. Qed.
Lemma fN_lt a b : a < b -> lt (fN a) (fN b).
Proof.
  intros H. apply (Lt_le_trans _ (fN (S a))); [|now apply fN_le]. cbn [ofN].
  pose proof (Lt_add _ _ (fN a) one_pos) as Q. replace (fadd f0 (fN a)) with (fN a) in Q by ring.
  now replace (fadd f1 (fN a)) with (fadd (fN a) f1) in Q by ring.
Qed.
Lemma two_pos : lt f0 two. Proof. rewrite <- fN_2. apply fN_pos. lia. Qed.
Lemma inv_pos x : lt f0 x -> lt f0 (finv x).
Proof.
  intros H. pose proof (Lt_neq _ H) as N. destruct (fltb f0 (finv x)) eqn:E; [reflexivity|]. exfalso.
  pose proof (Mul_le _ _ x (Lt_le _ _ H) E) as Q. replace (fmul x (finv x)) with f1 in Q by (field; assumption).
  replace (fmul x f0) with f0 in Q by ring. pose proof one_pos. congruence.
Qed.
Lemma mul_lt_inv z x y : lt f0 z -> lt (fmul z x) (fmul z y) -> lt x y.
Proof.
  intros Hz H. destruct (fltb x y) eqn:E; [reflexivity|]. pose proof (Mul_le _ _ z (Lt_le _ _ Hz) E). congruence.
Qed.
Lemma mul_le_inv z x y : lt f0 z -> le (fmul z x) (fmul z y) -> le x y.
Proof.
  intros Hz H. destruct (fltb y x) eqn:E; [|reflexivity]. pose proof (Lt_mul_pos _ _ z Hz E). congruence.
Qed.

(** ** Absolute values *)
Lemma abs_0 : tabs t0 = f0. Proof. now apply (ab_zero _ _ _ _ _ _ _ _ _ _ AB). Qed.
Lemma abs_mo : tabs (topp t1) = f1.
Proof.
  set (x := tabs (topp t1)). assert (S : fmul x x = f1).
  { unfold x. rewrite <- (ab_mul _ _ _ _ _ _ _ _ _ _ AB). replace (tmul (topp t1) (topp t1)) with t1 by ring. apply (ab_one _ _ _ _ _ _ _ _ _ _ AB). }
  assert (P : lt f0 (fadd x f1)).
  { pose proof (Le_add _ _ f1 (ab_pos _ _ _ _ _ _ _ _ _ _ AB (topp t1))) as Q. replace (fadd f0 f1) with f1 in Q by ring.
    exact (Lt_le_trans _ _ _ one_pos Q). }
  pose proof (Lt_neq _ P) as N. transitivity (fadd (fmul (finv (fadd x f1)) (fmul (fadd x f1) (fsub x f1))) f1); [field; assumption|].
  replace (fmul (fadd x f1) (fsub x f1)) with (fsub (fmul x x) f1) by ring. rewrite S. field. assumption.
Qed.
Lemma abs_opp x : tabs (topp x) = tabs x.
Proof.
  replace (topp x) with (tmul (topp t1) x) by ring. rewrite (ab_mul _ _ _ _ _ _ _ _ _ _ AB), abs_mo. ring.
Qed.
Lemma abs_neq x : x <> t0 -> lt f0 (tabs x).
Proof.
  intros H. destruct (Le_cases _ _ (ab_pos _ _ _ _ _ _ _ _ _ _ AB x)) as [L|E]; [assumption|].
  exfalso. apply H. now apply (ab_zero _ _ _ _ _ _ _ _ _ _ AB).
Qed.
Lemma abs_inv x : x <> t0 -> tabs (tinv x) = finv (tabs x).
Proof.
  intros H. pose proof (Lt_neq _ (abs_neq x H)) as N.
  assert (E : fmul (tabs x) (tabs (tinv x)) = f1).
  { rewrite <- (ab_mul _ _ _ _ _ _ _ _ _ _ AB). replace (tmul x (tinv x)) with t1 by (field; assumption). apply (ab_one _ _ _ _ _ _ _ _ _ _ AB). }
  transitivity (fmul (finv (tabs x)) (fmul (tabs x) (tabs (tinv x)))); [field; assumption|]. rewrite E. ring.
Qed.
Lemma char0 : forall k, tN (S k) <> t0.
Proof.
  intros k E. pose proof (ab_nat _ _ _ _ _ _ _ _ _ _ AB (S k)) as H. rewrite E, abs_0 in H.
  pose proof (fN_pos (S k) ltac:(lia)) as P. rewrite <- H, Lt_irrefl in P. discriminate.
Qed.
Lemma tN_neq k : 1 <= k -> tN k <> t0.
Proof. intros H. destruct k as [|k]; [lia|]. apply char0. Qed.
Notation fsum := (bsum f0 fadd). Notation tsum := (bsum t0 tadd).
Lemma abs_sum m f : le (tabs (tsum m f)) (fsum m (fun k => tabs (f k))).
Proof.
  induction m as [|m IH]; cbn [bsum]; [rewrite abs_0; apply Le_refl|].
  eapply Le_trans; [apply (ab_add _ _ _ _ _ _ _ _ _ _ AB)|]. apply Le_add2; [assumption|apply Le_refl].
Qed.
Lemma fsum_le m f g : (forall k, k < m -> le (f k) (g k)) -> le (fsum m f) (fsum m g).
Proof.
  induction m as [|m IH]; intros H; cbn [bsum]; [apply Le_refl|]. apply Le_add2; [apply IH; intros; apply H; lia|apply H; lia].
Qed.
Lemma fsum_term m f k : (forall j, j < m -> le f0 (f j)) -> k < m -> le (f k) (fsum m f).
Proof.
  induction m as [|m IH]; intros H Hk; [lia|]. cbn [bsum].
  assert (N : le f0 (fsum m f)).
  { pose proof (fsum_le m (fun _ => f0) f) as Q. rewrite (bsum_zero f0 f1 fadd fmul fsub fopp (F_R FF) m (fun _ => f0)) in Q by reflexivity.
    apply Q. intros; apply H; lia. }
  destruct (Nat.eq_dec k m) as [->|E].
  - pose proof (Le_add _ _ (f m) N) as Q. now replace (fadd f0 (f m)) with (f m) in Q by ring.
  - apply (Le_trans _ (fsum m f)); [apply IH; [intros; apply H; lia|lia]|].
    pose proof (Le_add2 _ _ _ _ (Le_refl (fsum m f)) (H m ltac:(lia))) as Q. now replace (fadd (fsum m f) f0) with (fsum m f) in Q by ring.
Qed.

(** ** The number of squarings *)
Context (tlog : F -> Z) (TL : trunc_log2_ok f0 f1 fadd fmul finv fltb tlog) (debug : bool).
Notation rowsum := (rowsum f0 fadd tabs). Notation maxrow := (maxrow f0 fadd fltb tabs). Notation lange := (lange f0 fadd fltb tabs).
Notation squarings := (squarings f0 fadd fltb tabs tlog debug).
Lemma maxrow_ge k n A i : i < k -> le (rowsum n A i) (maxrow k n A).
Proof.
  induction k as [|k IH]; intros H; [lia|]. cbn [PadeModel.maxrow].
  destruct (fltb (maxrow k n A) (rowsum n A k)) eqn:E.
  - destruct (Nat.eq_dec i k) as [->|N]; [apply Le_refl|]. apply (Le_trans _ (maxrow k n A)); [apply IH; lia|]. now apply Lt_le.
  - destruct (Nat.eq_dec i k) as [->|N]; [assumption|]. apply IH. lia.
Qed.
Lemma rowsum_entry n A i j : j < n -> le (tabs (A i j)) (rowsum n A i).
Proof.
  intros H. unfold PadeModel.rowsum. apply (fsum_term n (fun j => tabs (A i j)) j); [|assumption].
  intros. apply (ab_pos _ _ _ _ _ _ _ _ _ _ AB).
Qed.
Lemma maxrow_ext k n A B : (forall i j, i < n -> j < n -> tabs (A i j) = tabs (B i j)) -> k <= n -> maxrow k n A = maxrow k n B.
Proof.
  intros H. induction k as [|k IH]; intros Hk; [reflexivity|]. cbn [PadeModel.maxrow]. rewrite IH by lia.
  replace (rowsum n B k) with (rowsum n A k); [reflexivity|]. apply bsum_ext. intros. apply H; lia.
Qed.
Lemma squarings_ext n A B : (forall i j, i < n -> j < n -> tabs (A i j) = tabs (B i j)) -> squarings n A = squarings n B.
Proof. intros H. unfold PadeModel.squarings, PadeModel.lange. now rewrite (maxrow_ext n n A B H (le_n n)). Qed.
Lemma squarings_nonzero n A i j : i < n -> j < n -> A i j <> t0 -> exists ns, squarings n A = Ok ns.
Proof.
  intros Hi Hj H. unfold PadeModel.squarings.
  assert (P : lt f0 (lange n A)).
  { apply (Lt_le_trans _ (tabs (A i j))); [now apply abs_neq|]. apply (Le_trans _ (rowsum n A i)); [now apply rowsum_entry|].
    now apply maxrow_ge. }
  rewrite P. cbn [negb]. eexists; reflexivity.
Qed.
Lemma squarings_zero n A : (forall i j, i < n -> j < n -> A i j = t0) -> squarings n A = if debug then Err else UB.
Proof.
  intros H. unfold PadeModel.squarings.
  assert (Z : forall k, k <= n -> maxrow k n A = f0).
  { induction k as [|k IH]; intros Hk; [reflexivity|]. cbn [PadeModel.maxrow]. rewrite IH by lia.
    replace (rowsum n A k) with f0; [now rewrite Lt_irrefl|]. symmetry. unfold PadeModel.rowsum.
    apply (bsum_zero f0 f1 fadd fmul fsub fopp (F_R FF)). intros j Hj. rewrite H by lia. apply abs_0. }
  unfold PadeModel.lange. rewrite Z by lia. now rewrite Lt_irrefl.
Qed.
Lemma pow2_fN k : Nat.iter k (fmul two) f1 = fN (2 ^ k).
Proof.
  induction k as [|k IH]; [symmetry; apply fN_1|]. rewrite Nat.pow_succ_r', fN_mul, fN_2, <- IH. reflexivity.
Qed.
Lemma fpow2_of k : fpow2 f1 fadd fmul finv (Z.of_nat k) = fN (2 ^ k).
Proof. destruct k as [|k]; [symmetry; apply fN_1|]. cbn [Z.of_nat fpow2]. rewrite SuccNat2Pos.id_succ. apply pow2_fN. Qed.
Lemma fpow2_neg k : fpow2 f1 fadd fmul finv (- Z.of_nat k) = finv (fN (2 ^ k)).
Proof.
  destruct k as [|k]; [cbn [Z.of_nat Z.opp fpow2 Nat.pow]; rewrite fN_1; field; apply (F_1_neq_0 FF)|].
  cbn [Z.of_nat Z.opp fpow2]. rewrite SuccNat2Pos.id_succ. now rewrite pow2_fN.
Qed.
Lemma pow2_pos k : 1 <= 2 ^ k. Proof. pose proof (Nat.pow_nonzero 2 k). lia. Qed.
Lemma scaled n A ns : squarings n A = Ok ns -> lt (fmul two (lange n A)) (fN (2 ^ ns)).
Proof.
  unfold PadeModel.squarings. set (x := lange n A). intros H. destruct (fltb f0 x) eqn:P; cbn [negb] in H; [|destruct debug; discriminate H].
  injection H as <-. destruct (TL x P) as (_ & H1 & H2 & _).
  destruct (Z_lt_le_dec (tlog x) 0) as [L|L].
  - specialize (H2 L).
    assert (E : exists p, tlog x = (- Z.of_nat (S p))%Z) by (exists (Z.to_nat (- tlog x) - 1); lia).
    destruct E as [p E]. rewrite E, fpow2_neg in H2. rewrite E.
    set (d := fN (2 ^ S p)) in *. assert (Dp : lt f0 d) by (apply fN_pos, pow2_pos). pose proof (Lt_neq _ Dp) as Dn.
    assert (G : le (fmul two x) (fmul two (finv d))) by (apply Mul_le; [apply Lt_le, two_pos|assumption]).
    apply (le_lt_trans _ _ _ G). apply (mul_lt_inv d); [assumption|].
    replace (fmul d (fmul two (finv d))) with two by (field; assumption).
    destruct p as [|p].
    + replace (Z.to_nat (Z.max 0 (- Z.of_nat 1 + 2))) with 1 by lia. unfold d. rewrite <- fN_2, <- fN_mul. apply fN_lt. cbn; lia.
    + replace (Z.to_nat (Z.max 0 (- Z.of_nat (S (S p)) + 2))) with 0 by lia. unfold d. rewrite <- fN_2, <- fN_mul. apply fN_lt.
      cbn [Nat.pow]. pose proof (pow2_pos p). lia.
  - specialize (H1 L). assert (E : exists p, tlog x = Z.of_nat p) by (exists (Z.to_nat (tlog x)); lia). destruct E as [p E].
    rewrite E in H1 |- *. replace (Z.of_nat p + 1)%Z with (Z.of_nat (S p)) in H1 by lia. rewrite fpow2_of in H1.
    replace (Z.to_nat (Z.max 0 (Z.of_nat p + 2))) with (S (S p)) by lia.
    rewrite (Nat.pow_succ_r' 2 (S p)), fN_mul, fN_2. apply Lt_mul_pos; [apply two_pos|assumption].
Qed.
Notation mscale := (mscale tmul).
Lemma scaled_rows n A ns : squarings n A = Ok ns ->
  rows_below f0 fadd fltb tabs n (mscale (tinv (tN (2 ^ ns))) A) (finv two).
Proof.
  intros H i Hi. apply scaled in H. set (d := fN (2 ^ ns)) in *.
  assert (Dp : lt f0 d) by (apply fN_pos, pow2_pos). pose proof (Lt_neq _ Dp) as Dn. pose proof (Lt_neq _ two_pos) as Tn.
  rewrite (bsum_ext f0 fadd n _ (fun j => fmul (finv d) (tabs (A i j)))).
  2:{ intros j Hj. unfold PadeSpec.mscale. rewrite (ab_mul _ _ _ _ _ _ _ _ _ _ AB), abs_inv by (apply tN_neq, pow2_pos).
      now rewrite (ab_nat _ _ _ _ _ _ _ _ _ _ AB). }
  rewrite (bsum_mul_l f0 f1 fadd fmul fsub fopp (F_R FF)). fold (rowsum n A i).
  apply (mul_lt_inv (fmul two d)); [apply (of_mul _ _ _ _ _ _ _ _ _ OF); [apply two_pos|assumption]|].
  replace (fmul (fmul two d) (fmul (finv d) (rowsum n A i))) with (fmul two (rowsum n A i)) by (field; assumption).
  replace (fmul (fmul two d) (finv two)) with d by (field; assumption).
  apply (le_lt_trans _ (fmul two (lange n A))); [|assumption]. apply Mul_le; [apply Lt_le, two_pos|]. now apply maxrow_ge.
Qed.

(** ** The denominator is not singular *)
Section Sing.
Context (n : nat) (A : @mat T).
Notation mv B v := (fun i => tsum n (fun k => tmul (B i k) (v k))).
Notation mpoly := (mpoly t0 t1 tadd tmul n). Notation half := (finv two).
Context (RB : rows_below f0 fadd fltb tabs n A half).
Lemma mv_bound v w : le f0 w -> (forall i, i < n -> le (tabs (v i)) w) -> forall i, i < n -> le (tabs (mv A v i)) (fmul half w).
Proof.
  intros Hw H i Hi. eapply Le_trans; [apply abs_sum|].
  apply (Le_trans _ (fsum n (fun k => fmul (tabs (A i k)) w))).
  - apply fsum_le. intros k Hk. rewrite (ab_mul _ _ _ _ _ _ _ _ _ _ AB). apply Mul_le; [apply (ab_pos _ _ _ _ _ _ _ _ _ _ AB)|now apply H].
  - rewrite (bsum_mul_r f0 f1 fadd fmul fsub fopp (F_R FF)).
    replace (fmul (fsum n (fun i0 => tabs (A i i0))) w) with (fmul w (fsum n (fun i0 => tabs (A i i0)))) by ring.
    replace (fmul half w) with (fmul w half) by (field; apply Lt_neq, two_pos). apply Mul_le; [assumption|]. apply Lt_le, RB, Hi.
Qed.
Fixpoint bnd (c : list T) : F := match c with [] => f0 | x :: c' => fadd (tabs x) (fmul half (bnd c')) end.
Lemma half_pos : lt f0 half. Proof. apply inv_pos, two_pos. Qed.
Lemma bnd_nonneg c : le f0 (bnd c).
Proof.
  induction c as [|x c IH]; cbn [bnd]; [apply Le_refl|]. replace f0 with (fadd f0 f0) by ring.
  apply Le_add2; [apply (ab_pos _ _ _ _ _ _ _ _ _ _ AB)|]. apply Mul_nonneg; [apply Lt_le, half_pos|assumption].
Qed.
Lemma bnd_lt c : Forall (fun x => le (tabs x) f1) c -> lt (bnd c) two.
Proof.
  induction 1 as [|x c Hx Hc IH]; cbn [bnd]; [apply two_pos|].
  pose proof (Lt_mul_pos _ _ _ half_pos IH) as Q. replace (fmul half two) with f1 in Q by (field; apply Lt_neq, two_pos).
  apply (le_lt_trans _ (fadd f1 (fmul half (bnd c)))); [apply Le_add2; [assumption|apply Le_refl]|].
  pose proof (Lt_add _ _ f1 Q) as G. now replace (fadd (fmul half (bnd c)) f1) with (fadd f1 (fmul half (bnd c))) in G by ring.
Qed.
Lemma mpoly_mv c : forall v i, i < n -> mv (mpoly c A) v i =
  match c with [] => t0 | x :: c' => tadd (tmul x (v i)) (mv (mpoly c' A) (mv A v) i) end.
Proof.
  intros v i Hi. destruct c as [|x c]; cbn [PadeSpec.mpoly].
  - apply (bsum_zero t0 t1 tadd tmul tsub topp (F_R FT)). intros; ring.
  - rewrite (bsum_ext t0 tadd n _ (fun k => tadd (tmul x (tmul (delta t0 t1 i k) (v k))) (tmul (mmul t0 tadd tmul n (mpoly c A) A i k) (v k)))).
    2:{ intros k Hk. unfold madd, PadeSpec.mscale, mone, delta. destruct (i =? k); ring. }
    rewrite (bsum_add t0 t1 tadd tmul tsub topp (F_R FT)), (bsum_mul_l t0 t1 tadd tmul tsub topp (F_R FT)).
    rewrite (bsum_delta t0 t1 tadd tmul tsub topp (F_R FT)) by assumption. f_equal. unfold mmul.
    rewrite (bsum_ext t0 tadd n _ (fun k => tsum n (fun l => tmul (tmul (mpoly c A i l) (A l k)) (v k)))).
    2:{ intros k Hk. now rewrite (bsum_mul_r t0 t1 tadd tmul tsub topp (F_R FT)). }
    rewrite (bsum_swap t0 t1 tadd tmul tsub topp (F_R FT)). apply bsum_ext. intros l Hl.
    rewrite <- (bsum_mul_l t0 t1 tadd tmul tsub topp (F_R FT)). apply bsum_ext. intros; ring.
Qed.
Lemma poly_bound c : forall v w, le f0 w -> (forall i, i < n -> le (tabs (v i)) w) ->
  forall i, i < n -> le (tabs (mv (mpoly c A) v i)) (fmul (bnd c) w).
Proof.
  induction c as [|x c IH]; intros v w Hw H i Hi; rewrite mpoly_mv by assumption; cbn [bnd].
  - rewrite abs_0. replace (fmul f0 w) with f0 by ring. apply Le_refl.
  - eapply Le_trans; [apply (ab_add _ _ _ _ _ _ _ _ _ _ AB)|].
    replace (fmul (fadd (tabs x) (fmul half (bnd c))) w) with (fadd (fmul (tabs x) w) (fmul (bnd c) (fmul half w)))
      by (field; apply Lt_neq, two_pos).
    apply Le_add2.
    + rewrite (ab_mul _ _ _ _ _ _ _ _ _ _ AB). apply Mul_le; [apply (ab_pos _ _ _ _ _ _ _ _ _ _ AB)|now apply H].
    + apply IH; [apply Mul_nonneg; [apply Lt_le, half_pos|assumption]|now apply mv_bound|assumption].
Qed.
Lemma max_exists (f : nat -> F) : forall m, 1 <= m -> exists i, i < m /\ forall j, j < m -> le (f j) (f i).
Proof.
  induction m as [|m IH]; intros H; [lia|]. destruct m as [|m].
  - exists 0. split; [lia|]. intros j Hj. replace j with 0 by lia. apply Le_refl.
  - destruct IH as (i & Hi & Hm); [lia|]. destruct (fltb (f i) (f (S m))) eqn:E.
    + exists (S m). split; [lia|]. intros j Hj. destruct (Nat.eq_dec j (S m)) as [->|N]; [apply Le_refl|].
      apply (Le_trans _ (f i)); [apply Hm; lia|now apply Lt_le].
    + exists i. split; [lia|]. intros j Hj. destruct (Nat.eq_dec j (S m)) as [->|N]; [assumption|apply Hm; lia].
Qed.
Lemma nonsingular c v : Forall (fun x => le (tabs x) f1) c ->
  (forall i, i < n -> mv (mpoly (t1 :: c) A) v i = t0) -> forall i, i < n -> v i = t0.
Proof.
  intros Hc H i Hi. destruct (max_exists (fun i => tabs (v i)) n) as (i0 & Hi0 & Hm); [lia|].
  set (w := tabs (v i0)) in *. assert (Hw : le f0 w) by apply (ab_pos _ _ _ _ _ _ _ _ _ _ AB).
  assert (B : le w (fmul (bnd c) (fmul half w))).
  { pose proof (eq_trans (eq_sym (mpoly_mv (t1 :: c) v i0 Hi0)) (H i0 Hi0)) as E. cbv beta iota in E.
    assert (EQ : v i0 = topp (mv (mpoly c A) (mv A v) i0)).
    { transitivity (tadd (tadd (tmul t1 (v i0)) (mv (mpoly c A) (mv A v) i0)) (topp (mv (mpoly c A) (mv A v) i0))); [ring|].
      rewrite E. ring. }
    assert (Ew : w = tabs (mv (mpoly c A) (mv A v) i0)) by (unfold w; rewrite EQ; apply abs_opp).
    apply (Le_trans _ (tabs (mv (mpoly c A) (mv A v) i0))); [rewrite <- Ew; apply Le_refl|].
    apply (poly_bound c (mv A v)); [apply Mul_nonneg; [apply Lt_le, half_pos|assumption]| |assumption].
    now apply mv_bound. }
  assert (W0 : w = f0).
  { destruct (Le_cases _ _ Hw) as [L|E]; [|now symmetry]. exfalso.
    pose proof (bnd_lt c Hc) as Bl. pose proof (Lt_mul_pos _ _ _ (of_mul _ _ _ _ _ _ _ _ _ OF _ _ half_pos L) Bl) as Q.
    replace (fmul (fmul half w) two) with w in Q by (field; apply Lt_neq, two_pos).
    replace (fmul (bnd c) (fmul half w)) with (fmul (fmul half w) (bnd c)) in B by (field; apply Lt_neq, two_pos). congruence. }
  apply (ab_zero _ _ _ _ _ _ _ _ _ _ AB). apply Total.
  - apply (ab_pos _ _ _ _ _ _ _ _ _ _ AB).
  - rewrite <- W0. now apply Hm.
Qed.
End Sing.
Lemma coef_abs q k : k <= q -> le (tabs (coef t0 t1 tadd tmul tinv q k)) f1.
Proof.
  induction k as [|k IH]; intros Hk; cbn [coef]; [rewrite (ab_one _ _ _ _ _ _ _ _ _ _ AB); apply Le_refl|].
  rewrite !(ab_mul _ _ _ _ _ _ _ _ _ _ AB), abs_inv by (apply tN_neq; nia). rewrite !(ab_nat _ _ _ _ _ _ _ _ _ _ AB).
  set (a := q + 1 - S k). set (b := S k * (2 * q + 1 - S k)). assert (L : a <= b) by (unfold a, b; nia). assert (B1 : 1 <= b) by (unfold a, b in *; nia).
  pose proof (fN_pos b B1) as Bp.
  assert (R : le (fmul (fN a) (finv (fN b))) f1).
  { apply (mul_le_inv (fN b)); [assumption|]. replace (fmul (fN b) (fmul (fN a) (finv (fN b)))) with (fN a) by (field; now apply Lt_neq).
    replace (fmul (fN b) f1) with (fN b) by ring. now apply fN_le. }
  apply (Le_trans _ (fmul (tabs (coef t0 t1 tadd tmul tinv q k)) f1)).
  - apply Mul_le; [apply (ab_pos _ _ _ _ _ _ _ _ _ _ AB)|exact R].
  - replace (fmul (tabs (coef t0 t1 tadd tmul tinv q k)) f1) with (tabs (coef t0 t1 tadd tmul tinv q k)) by ring. apply IH. lia.
Qed.
Lemma den_nonsingular q n A v : rows_below f0 fadd fltb tabs n A (finv two) ->
  (forall i, i < n -> tsum n (fun k => tmul (mpoly t0 t1 tadd tmul n (den t0 t1 tadd tmul topp tinv q) A i k) (v k)) = t0) ->
  forall i, i < n -> v i = t0.
Proof.
  intros RB H. unfold den in H. cbn [seq map] in H.
  replace (tmul (sg t1 tmul (topp t1) 0) (coef t0 t1 tadd tmul tinv q 0)) with t1 in H by (cbn; ring).
  eapply nonsingular; [exact RB| |exact H]. apply Forall_map, Forall_forall. intros k Hk. apply in_seq in Hk.
  rewrite (ab_mul _ _ _ _ _ _ _ _ _ _ AB).
  assert (SG : forall m, tabs (sg t1 tmul (topp t1) m) = f1).
  { induction m as [|m IH]; [apply (ab_one _ _ _ _ _ _ _ _ _ _ AB)|]. change (sg t1 tmul (topp t1) (S m)) with (tmul (topp t1) (sg t1 tmul (topp t1) m)).
    rewrite (ab_mul _ _ _ _ _ _ _ _ _ _ AB), abs_mo, IH. ring. }
  rewrite SG. replace (fmul f1 (tabs (coef t0 t1 tadd tmul tinv q k))) with (tabs (coef t0 t1 tadd tmul tinv q k)) by ring.
  apply coef_abs. lia.
Qed.
End Norm.
