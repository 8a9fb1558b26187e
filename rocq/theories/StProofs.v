(** Lemmas for C68: ITensor::set, the finite tables, and the tables of CustomSpin and Boson for every size. *)
From Coq Require Import List Arith Bool ZArith Lia Ring Field String Ascii DecimalString DecimalZ DecimalFacts.
From Verif Require SiteOpsModel.
From Verif Require Import Util BigSum PadeSpec StSpec StModel.
Import ListNotations.
Local Open Scope outcome_scope.
Local Open Scope string_scope.
Local Open Scope nat_scope.

Section Set_.
Context {T : Type} (t0 : T).
Notation mat := (@mat T). Notation mset := (@mset T). Notation set_all := (@set_all T). Notation zeros := (zeros t0).
Fixpoint filled (l : list (nat * nat * T)) (M : mat) : mat := match l with [] => M | (i, o, v) :: l' => filled l' (mset M i o v) end.
Lemma flux_eqb_eq a b : flux_eqb a b = true <-> a = b.
Proof. unfold flux_eqb. destruct (list_eq_dec Z.eq_dec a b); split; congruence. Qed.
Lemma set_dense fl l : forall M, set_all None fl l M = Ok (filled l M).
Proof. induction l as [|[[i o] v] l IH]; intros M; cbn [StModel.set_all filled]; [reflexivity|apply IH]. Qed.
Lemma set_some q f l : forall M, (forall i o v, In (i, o, v) l -> elt_flux q i o = f) -> set_all (Some q) (Some f) l M = Ok (filled l M).
Proof.
  induction l as [|[[i o] v] l IH]; intros M Hl; cbn [StModel.set_all filled]; [reflexivity|].
  rewrite (Hl i o v (or_introl eq_refl)), (proj2 (flux_eqb_eq f f) eq_refl). apply IH. intros i' o' v' H'. apply (Hl i' o' v'). now right.
Qed.
Lemma set_ok qs l M f : (forall q, qs = Some q -> forall i o v, In (i, o, v) l -> elt_flux q i o = f) -> set_all qs None l M = Ok (filled l M).
Proof.
  intros Hl. destruct qs as [q|]; [|apply set_dense]. specialize (Hl q eq_refl). destruct l as [|[[i o] v] l]; [reflexivity|].
  cbn [StModel.set_all filled]. rewrite (proj2 (flux_eqb_eq _ _) eq_refl). rewrite (Hl i o v (or_introl eq_refl)).
  apply set_some. intros i' o' v' H'. apply (Hl i' o' v'). now right.
Qed.
Lemma set_filled qs l : forall fl M M', set_all qs fl l M = Ok M' -> M' = filled l M.
Proof.
  induction l as [|[[i o] v] l IH]; intros fl M M' E; cbn [StModel.set_all filled] in *; [congruence|].
  destruct qs as [q|]; [|eauto]. destruct (flux_eqb _ _); [|discriminate]. eauto.
Qed.
Lemma set_flux_some q l : forall f M M', set_all (Some q) (Some f) l M = Ok M' -> forall i o v, In (i, o, v) l -> elt_flux q i o = f.
Proof.
  induction l as [|[[i o] v] l IH]; intros f M M' E i' o' v' H'; [destruct H'|]. cbn [StModel.set_all] in E.
  destruct (flux_eqb _ _) eqn:Q in E; [|discriminate]. apply flux_eqb_eq in Q. destruct H' as [H'|H']; [congruence|eauto].
Qed.
Lemma set_flux q l M M' : set_all (Some q) None l M = Ok M' -> exists f, forall i o v, In (i, o, v) l -> elt_flux q i o = f.
Proof.
  destruct l as [|[[i o] v] l]; [intros _; exists []; intros ? ? ? []|]. cbn [StModel.set_all]. rewrite (proj2 (flux_eqb_eq _ _) eq_refl). intros E.
  exists (elt_flux q i o). intros i' o' v' [H'|H']; [congruence|]. exact (set_flux_some _ _ _ _ _ E _ _ _ H').
Qed.
Lemma filled_in l : forall M r c, (exists v, In (c, r, v) l /\ filled l M r c = v) \/ ((forall v, ~ In (c, r, v) l) /\ filled l M r c = M r c).
Proof.
  induction l as [|[[i o] v] l IH]; intros M r c; cbn [filled]; [right; split; [intros v []|reflexivity]|].
  destruct (IH (mset M i o v) r c) as [(w & Hw & E)|(N & E)].
  - left. exists w. split; [now right|assumption].
  - unfold StModel.mset in E at 2. destruct (Nat.eqb_spec r o) as [->|D1]; [destruct (Nat.eqb_spec c i) as [->|D2]|]; cbn [andb] in E.
    + left. exists v. split; [now left|assumption].
    + right. split; [|assumption]. intros w [Hw|Hw]; [congruence|exact (N w Hw)].
    + right. split; [|assumption]. intros w [Hw|Hw]; [congruence|exact (N w Hw)].
Qed.
Lemma filled_nz l r c : filled l zeros r c <> t0 -> exists v, In (c, r, v) l.
Proof. intros H. destruct (filled_in l zeros r c) as [(v & Hv & _)|(_ & E)]; [eauto|]. now rewrite E in H. Qed.
(** One entry for each of some states. *)
Lemma filled_map (f g : nat -> nat) (v : nat -> T) a n r c :
  (forall k k', a <= k < a + n -> a <= k' < a + n -> f k = f k' -> k = k') ->
  (forall k, a <= k < a + n -> f k = c -> g k = r -> filled (map (fun k => (f k, g k, v k)) (seq a n)) zeros r c = v k) /\
  ((forall k, a <= k < a + n -> f k = c -> g k <> r) -> filled (map (fun k => (f k, g k, v k)) (seq a n)) zeros r c = t0).
Proof.
  intros INJ. destruct (filled_in (map (fun k => (f k, g k, v k)) (seq a n)) zeros r c) as [(w & Hw & E)|(N & E)]; rewrite E.
  - apply in_map_iff in Hw. destruct Hw as (k' & Ek & Hk'). apply in_seq in Hk'. injection Ek as E1 E2 E3. split.
    + intros k Hk Hf Hg. rewrite <- E3. f_equal. apply INJ; congruence || assumption.
    + intros H. exfalso. exact (H k' Hk' E1 E2).
  - split; [|reflexivity]. intros k Hk Hf Hg. exfalso. apply (N (v k)). apply in_map_iff. exists k. split; [congruence|]. now apply in_seq.
Qed.
End Set_.

(** * Fluxes *)
Definition wf (qs : list charge) : Prop := exists ms, forall q, In q qs -> map snd q = ms.
Lemma states_wf k a qs : states k a = Ok (Some qs) -> wf qs /\ List.length qs = dim k.
Proof.
  assert (R : forall n, wf (repeat ([] : charge) n)) by (intros n; exists []; intros q Hq; apply repeat_spec in Hq; now subst q).
  assert (L : forall f n, wf (map (fun k => [(f k, 1%Z)]) (seq 0 n))) by (intros f n; exists [1%Z]; intros q Hq; apply in_map_iff in Hq; destruct Hq as (x & <- & _); reflexivity).
  assert (W : forall ms (l : list charge), forallb (fun q => if list_eq_dec Z.eq_dec (map snd q) ms then true else false) l = true -> wf l).
  { intros ms l Hl. exists ms. intros q Hq. rewrite forallb_forall in Hl. specialize (Hl q Hq). cbv beta in Hl. destruct (list_eq_dec _ _ _) in Hl; [assumption|discriminate]. }
  destruct k; cbn [states]; intros E.
  all: repeat match type of E with context [if ?b then _ else _] => destruct b end; try discriminate E; injection E as <-.
  all: split; try (rewrite ?map_length, ?seq_length, ?repeat_length; reflexivity); try apply R; try apply L.
  all: try (match goal with |- wf (_ :: map _ (seq 1 ?M)) => exact (L Z.of_nat (S M)) | |- wf (_ :: repeat _ ?M) => exact (R (S M)) end).
  all: try (cbn [List.length dim]; rewrite ?map_length, ?seq_length, ?repeat_length; reflexivity).
  all: match goal with |- wf (?q :: _) => apply (W (map snd q)); reflexivity end.
Qed.
Lemma reduce_add m a b : reduce m (reduce m a + reduce m b) = reduce m (a + b).
Proof.
  unfold reduce. destruct (Z.ltb_spec 1 (Z.abs m)) as [H|H]; [|reflexivity]. rewrite <- Z.add_mod by lia. reflexivity.
Qed.
Lemma elt_flux_self ms : forall q : charge, map snd q = ms -> map (fun p => let '((vo, m), (vi, _)) := p in reduce m (vo - vi)) (combine q q) = map (fun _ => 0%Z) ms.
Proof.
  intros q <-. induction q as [|[v m] q IH]; [reflexivity|]. cbn [combine map snd]. rewrite IH. f_equal. unfold reduce. rewrite Z.sub_diag.
  destruct (Z.ltb_spec 1 (Z.abs m)); [apply Z.mod_0_l; lia|reflexivity].
Qed.
Lemma elt_flux_add : forall (qi qk qo : charge) ms, map snd qi = ms -> map snd qk = ms -> map snd qo = ms ->
  map (fun p => let '((vo, m), (vi, _)) := p in reduce m (vo - vi)) (combine qo qi) =
  map (fun p => let '((a, b), m) := p in reduce m (a + b))
    (combine (combine (map (fun p => let '((vo, m), (vi, _)) := p in reduce m (vo - vi)) (combine qo qk))
                      (map (fun p => let '((vo, m), (vi, _)) := p in reduce m (vo - vi)) (combine qk qi))) ms).
Proof.
  induction qi as [|[vi mi] qi IH]; intros [|[vk mk] qk] [|[vo mo] qo] ms Hi Hk Ho; subst ms; try discriminate; try reflexivity.
  cbn [map combine snd] in *. injection Hk as -> Hk. injection Ho as -> Ho. f_equal.
  - rewrite reduce_add. f_equal. lia.
  - now apply IH.
Qed.

Section Sites.
Context {T : Type} (t0 t1 : T) (tadd tmul tsub : T -> T -> T) (topp : T -> T) (tdiv : T -> T -> T) (tinv : T -> T).
Context (tconj : T -> T) (rt : T -> T) (tg : trig T).
Context (SN : site_numbers t0 t1 tadd tmul tsub topp tdiv tinv tconj rt tg).
Let FT := sn_field _ _ _ _ _ _ _ _ _ _ _ SN.
Let RT := F_R FT.
Add Field FTst : FT.
Notation N := (ofN t0 t1 tadd).
Notation mat := (@mat T). Notation mmul := (mmul t0 tadd tmul). Notation bsum := (bsum t0 tadd).
Notation op := (op t0 t1 tadd tmul tsub topp tinv rt tg). Notation op_fuel := (op_fuel t0 t1 tadd tmul tsub topp tinv rt tg).
Notation siteop := (siteop t0 t1 tadd tmul tsub topp tinv rt tg). Notation identity := (identity t0 t1).

Definition uniform (k : kind) (qs : list charge) (M : mat) : Prop :=
  exists f, forall i o, i < dim k -> o < dim k -> elt_flux qs i o <> f -> M o i = t0.
Lemma set_uniform k qs l M : @set_all T (Some qs) None l (zeros t0) = Ok M -> uniform k qs M.
Proof.
  intros E. destruct (set_flux _ _ _ _ E) as [f Hf]. apply set_filled in E. subst M. exists f. intros i o _ _ NF.
  destruct (filled_in l (zeros t0) o i) as [(v & Hv & _)|(_ & E)]; [|exact E]. exfalso. exact (NF (Hf _ _ _ Hv)).
Qed.
Lemma identity_uniform k qs M : identity k (Some qs) = Ok (inl M) -> uniform k qs M.
Proof. unfold StModel.identity. destruct (set_all _ _ _ _) eqn:E; cbn [obind]; [|discriminate..]. intros [= <-]. exact (set_uniform _ _ _ _ E). Qed.
Lemma siteop_uniform k qs name M : siteop k (Some qs) name = Ok (inl M) -> uniform k qs M.
Proof.
  unfold StModel.siteop. destruct (lookup (ops _ _ _ _ _ _ _ _ _ k) name) as [l|].
  - destruct (set_all _ _ _ _) eqn:E; cbn [obind]; [|discriminate..]. intros [= <-]. exact (set_uniform _ _ _ _ E).
  - destruct (lookup _ _); [|discriminate]. destruct (set_ket _ _ _ _); discriminate.
Qed.
Lemma mul_uniform k qs A B : wf qs -> List.length qs = dim k -> uniform k qs A -> uniform k qs B -> uniform k qs (mmul (dim k) A B).
Proof.
  intros [ms Hms] Hl [fA HA] [fB HB].
  assert (Q : forall i, i < dim k -> map snd (nth i qs []) = ms) by (intros i Hi; apply Hms, nth_In; lia).
  exists (map (fun p => let '((a, b), m) := p in reduce m (a + b)) (combine (combine fA fB) ms)). intros i o Hi Ho NF.
  apply (bsum_zero t0 t1 tadd tmul tsub topp RT). intros x Hx.
  destruct (list_eq_dec Z.eq_dec (elt_flux qs x o) fA) as [EA|NA]; [|rewrite (HA x o Hx Ho NA); ring].
  destruct (list_eq_dec Z.eq_dec (elt_flux qs i x) fB) as [EB|NB]; [|rewrite (HB i x Hi Hx NB); ring].
  exfalso. apply NF. rewrite <- EA, <- EB. apply elt_flux_add; auto.
Qed.
Lemma op_uniform k qs : wf qs -> List.length qs = dim k -> forall fuel name M, op_fuel fuel k (Some qs) name = Ok (inl M) -> uniform k qs M.
Proof.
  intros W L. induction fuel as [|fuel IH]; intros name M E; cbn [StModel.op_fuel] in E.
  all: destruct (String.eqb name "Id"); [exact (identity_uniform _ _ _ E)|].
  all: destruct (String.eqb name "F"); [destruct (siteop k (Some qs) name) as [X| |] eqn:S; [injection E as ->; exact (siteop_uniform _ _ _ _ S)|exact (identity_uniform _ _ _ E)|discriminate]|].
  all: destruct (SiteOpsModel.split_star name) as [[a b]|]; [|exact (siteop_uniform _ _ _ _ E)].
  - discriminate.
  - destruct (op_fuel fuel k (Some qs) a) as [[A|]| |] eqn:EA; cbn [obind] in E; try discriminate; destruct (op_fuel fuel k (Some qs) b) as [[B|]| |] eqn:EB; cbn [obind] in E; try discriminate.
    injection E as <-. apply mul_uniform; eauto.
Qed.
Lemma op_uniform' k a qs name M : states k a = Ok (Some qs) -> op k a name = Ok (inl M) -> uniform k qs M.
Proof.
  intros E H. unfold StModel.op in H. rewrite E in H. cbn [obind] in H. destruct (states_wf _ _ _ E) as [W L]. exact (op_uniform _ _ W L _ _ _ H).
Qed.

(** * Sums with one term *)
Lemma bsum_one n f k : k < n -> (forall i, i < n -> i <> k -> f i = t0) -> bsum n f = f k.
Proof.
  intros Hk Hz. rewrite <- (bsum_delta t0 t1 tadd tmul tsub topp RT n k f Hk). apply bsum_ext. intros i Hi. unfold delta.
  destruct (Nat.eqb_spec k i) as [->|D]; [ring|]. rewrite (Hz i Hi) by congruence. ring.
Qed.
Lemma N_add a b : N (a + b) = tadd (N a) (N b).
Proof. induction b as [|b IH]; [rewrite Nat.add_0_r; cbn [ofN]; ring|]. rewrite Nat.add_succ_r. cbn [ofN]. rewrite IH. ring. Qed.
Lemma N_mul a b : N (a * b) = tmul (N a) (N b).
Proof. induction b as [|b IH]; [rewrite Nat.mul_0_r; cbn [ofN]; ring|]. rewrite Nat.mul_succ_r, N_add, IH. cbn [ofN]. ring. Qed.
Lemma N_sub a b : b <= a -> N (a - b) = tsub (N a) (N b).
Proof. intros H. replace a with ((a - b) + b) at 2 by lia. rewrite N_add. ring. Qed.
Lemma N2 : N 2 <> t0. Proof. apply (sn_char _ _ _ _ _ _ _ _ _ _ _ SN). Qed.
Lemma conj_N n : tconj (N n) = N n.
Proof.
  pose proof (sn_conj _ _ _ _ _ _ _ _ _ _ _ SN) as [C1 CA CM CC].
  assert (C0 : tconj t0 = t0).
  { assert (E : tadd (tconj t0) (tconj t0) = tconj t0) by (rewrite <- CA; f_equal; ring). transitivity (tsub (tadd (tconj t0) (tconj t0)) (tconj t0)); [ring|]. rewrite E. ring. }
  induction n as [|n IH]; cbn [ofN]; [assumption|]. now rewrite CA, IH, C1.
Qed.
Lemma conj_0 : tconj t0 = t0. Proof. exact (conj_N 0). Qed.
Lemma conj_1 : tconj t1 = t1. Proof. apply (cj_one _ _ _ _ (sn_conj _ _ _ _ _ _ _ _ _ _ _ SN)). Qed.
Lemma conj_add x y : tconj (tadd x y) = tadd (tconj x) (tconj y). Proof. apply (cj_add _ _ _ _ (sn_conj _ _ _ _ _ _ _ _ _ _ _ SN)). Qed.
Lemma conj_mul x y : tconj (tmul x y) = tmul (tconj x) (tconj y). Proof. apply (cj_mul _ _ _ _ (sn_conj _ _ _ _ _ _ _ _ _ _ _ SN)). Qed.
Lemma conj_opp x : tconj (topp x) = topp (tconj x).
Proof. assert (E : tadd (tconj x) (tconj (topp x)) = t0) by (rewrite <- conj_add; replace (tadd x (topp x)) with t0 by ring; apply conj_0). transitivity (tsub (tadd (tconj x) (tconj (topp x))) (tconj x)); [ring|]. rewrite E. ring. Qed.
Lemma conj_sub x y : tconj (tsub x y) = tsub (tconj x) (tconj y).
Proof. replace (tsub x y) with (tadd x (topp y)) by ring. rewrite conj_add, conj_opp. ring. Qed.
Lemma conj_inv x : x <> t0 -> tconj (tinv x) = tinv (tconj x).
Proof.
  intros H. assert (E : tmul (tconj x) (tconj (tinv x)) = t1) by (rewrite <- conj_mul; replace (tmul x (tinv x)) with t1 by (field; assumption); apply conj_1).
  assert (C : tconj x <> t0). { intros Q. apply (F_1_neq_0 FT). rewrite <- E, Q. ring. }
  transitivity (tmul (tinv (tconj x)) (tmul (tconj x) (tconj (tinv x)))); [field; assumption|]. rewrite E. field. assumption.
Qed.

(** * CustomSpin *)
Notation half := (half t0 t1 tadd tmul tinv).
Notation csz := (csz t0 t1 tadd tmul tsub topp tinv).
Notation custom := (customspin_ops t0 t1 tadd tmul tsub topp tinv rt).
Lemma csz_val D k : csz D k = tsub (N k) (half (N D)).
Proof. unfold StModel.csz, StSpec.half. rewrite N_add. cbn [ofN]. ring. Qed.
Lemma half_double x : tadd (half x) (half x) = x.
Proof. unfold StSpec.half. pose proof N2 as H. cbn [ofN] in *. field. intros Q. apply H. transitivity (tadd t1 t1); [ring|exact Q]. Qed.
Definition entry (name : string) (D : nat) : mat := match lookup (custom D) name with Some l => filled l (zeros t0) | None => zeros t0 end.
Lemma sz_entry D r c : r < D + 1 -> c < D + 1 -> entry "Sz" D r c = if r =? c then tsub (N c) (half (N D)) else t0.
Proof.
  intros Hr Hc. unfold entry. cbn [lookup customspin_ops find String.eqb fst snd]. cbn.
  destruct (filled_map t0 (fun k => k) (fun k => k) (csz D) 0 (D + 1) r c) as [P Q]; [intros; assumption|].
  destruct (Nat.eqb_spec r c) as [->|ND]; [rewrite (P c) by lia; apply csz_val|]. apply Q. intros k Hk -> E. congruence.
Qed.
Lemma sp_arg D k : k <= D -> tmul (tsub (half (N D)) (csz D k)) (tadd (tadd (half (N D)) (csz D k)) t1) = N ((D - k) * (k + 1)).
Proof.
  intros Hk. rewrite csz_val, N_mul, N_sub, N_add by lia. rewrite <- (half_double (N D)) at 5. cbn [ofN]. ring.
Qed.
Lemma sm_arg D k : k <= D -> tmul (tadd (half (N D)) (csz D k)) (tadd (tsub (half (N D)) (csz D k)) t1) = N (k * (D - k + 1)).
Proof.
  intros Hk. rewrite csz_val, N_mul, N_add, N_sub by lia. rewrite <- (half_double (N D)) at 5. cbn [ofN]. ring.
Qed.
Lemma sp_entry D r c : r < D + 1 -> c < D + 1 -> entry "S+" D r c = if r =? c + 1 then rt (N (r * (D + 1 - r))) else t0.
Proof.
  intros Hr Hc. unfold entry. cbn.
  destruct (filled_map t0 (fun k => k) (fun k => k + 1) (fun k => rt (tmul (tsub (half (N D)) (csz D k)) (tadd (tadd (half (N D)) (csz D k)) t1))) 0 D r c) as [P Q]; [intros; assumption|].
  destruct (Nat.eqb_spec r (c + 1)) as [->|ND]; [rewrite (P c), sp_arg by lia; do 2 f_equal; lia|]. apply Q. intros k Hk -> E. congruence.
Qed.
Lemma sm_entry D r c : r < D + 1 -> c < D + 1 -> entry "S-" D r c = if c =? r + 1 then rt (N (c * (D + 1 - c))) else t0.
Proof.
  intros Hr Hc. unfold entry. cbn.
  destruct (filled_map t0 (fun k => k) (fun k => k - 1) (fun k => rt (tmul (tadd (half (N D)) (csz D k)) (tadd (tsub (half (N D)) (csz D k)) t1))) 1 D r c) as [P Q]; [intros; assumption|].
  destruct (Nat.eqb_spec c (r + 1)) as [->|ND]; [rewrite (P (r + 1)), sm_arg by lia; do 3 f_equal; lia|]. apply Q. intros k Hk -> E. lia.
Qed.
Lemma sz2_entry D r c : r < D + 1 -> c < D + 1 -> entry "Sz2" D r c = if r =? c then tmul (tsub (N c) (half (N D))) (tsub (N c) (half (N D))) else t0.
Proof.
  intros Hr Hc. unfold entry. cbn.
  destruct (filled_map t0 (fun k => k) (fun k => k) (fun k => tmul (csz D k) (csz D k)) 0 (D + 1) r c) as [P Q]; [intros; assumption|].
  destruct (Nat.eqb_spec r c) as [->|ND]; [rewrite (P c), csz_val by lia; reflexivity|]. apply Q. intros k Hk -> E. congruence.
Qed.
Lemma up_entry D r c : r < D + 1 -> c < D + 1 -> entry "U+" D r c = if r =? c + 1 then t1 else t0.
Proof.
  intros Hr Hc. unfold entry. cbn. destruct (filled_map t0 (fun k => k) (fun k => k + 1) (fun k => t1) 0 D r c) as [P Q]; [intros; assumption|].
  destruct (Nat.eqb_spec r (c + 1)) as [->|ND]; [rewrite (P c) by lia; reflexivity|]. apply Q. intros k Hk -> E. congruence.
Qed.
Lemma um_entry D r c : r < D + 1 -> c < D + 1 -> entry "U-" D r c = if c =? r + 1 then t1 else t0.
Proof.
  intros Hr Hc. unfold entry. cbn. destruct (filled_map t0 (fun k => k) (fun k => k - 1) (fun k => t1) 1 D r c) as [P Q]; [intros; assumption|].
  destruct (Nat.eqb_spec c (r + 1)) as [->|ND]; [rewrite (P (r + 1)) by lia; reflexivity|]. apply Q. intros k Hk -> E. lia.
Qed.
Lemma root_sq n : tmul (rt (N n)) (rt (N n)) = N n. Proof. apply (sn_root _ _ _ _ _ _ _ _ _ _ _ SN). Qed.
Lemma diag_l n (A B : mat) d r c : (forall k, k < n -> A r k = if r =? k then d else t0) -> r < n -> mmul n A B r c = tmul d (B r c).
Proof.
  intros HA Hr. unfold PadeSpec.mmul. rewrite (bsum_one n _ r Hr).
  - now rewrite (HA r Hr), Nat.eqb_refl.
  - intros k Hk D. rewrite (HA k Hk). destruct (Nat.eqb_spec r k); [congruence|]. ring.
Qed.
Lemma diag_r n (A B : mat) d r c : (forall k, k < n -> B k c = if k =? c then d else t0) -> c < n -> mmul n A B r c = tmul (A r c) d.
Proof.
  intros HB Hc. unfold PadeSpec.mmul. rewrite (bsum_one n _ c Hc).
  - now rewrite (HB c Hc), Nat.eqb_refl.
  - intros k Hk D. rewrite (HB k Hk). destruct (Nat.eqb_spec k c); [congruence|]. ring.
Qed.
(** Ladder matrices with elements a_k = <k|U|k-1> = <k-1|D|k>. *)
Lemma ladder_ud n (U L : mat) a r c :
  (forall r c, r < n -> c < n -> U r c = if r =? c + 1 then a r else t0) -> (forall r c, r < n -> c < n -> L r c = if c =? r + 1 then a c else t0) ->
  r < n -> c < n -> mmul n U L r c = if r =? c then if r =? 0 then t0 else tmul (a r) (a r) else t0.
Proof.
  intros HU HL Hr Hc. unfold PadeSpec.mmul. destruct (Nat.eqb_spec r 0) as [R0|R0].
  - rewrite (bsum_zero t0 t1 tadd tmul tsub topp RT); [now destruct (r =? c)|]. intros k Hk. rewrite HU by assumption. destruct (Nat.eqb_spec r (k + 1)); [lia|ring].
  - rewrite (bsum_one n _ (r - 1)) by lia || (intros k Hk D; rewrite HU by assumption; destruct (Nat.eqb_spec r (k + 1)); [lia|ring]).
    rewrite HU, HL by lia. destruct (Nat.eqb_spec r (r - 1 + 1)); [|lia]. destruct (Nat.eqb_spec c (r - 1 + 1)), (Nat.eqb_spec r c); try lia; [now replace c with r by lia|ring].
Qed.
Lemma ladder_du n (U L : mat) a r c :
  (forall r c, r < n -> c < n -> U r c = if r =? c + 1 then a r else t0) -> (forall r c, r < n -> c < n -> L r c = if c =? r + 1 then a c else t0) ->
  r < n -> c < n -> mmul n L U r c = if r =? c then if r + 1 =? n then t0 else tmul (a (r + 1)) (a (r + 1)) else t0.
Proof.
  intros HU HL Hr Hc. unfold PadeSpec.mmul. destruct (Nat.eqb_spec (r + 1) n) as [R0|R0].
  - rewrite (bsum_zero t0 t1 tadd tmul tsub topp RT); [now destruct (r =? c)|]. intros k Hk. rewrite HL by assumption. destruct (Nat.eqb_spec k (r + 1)); [lia|ring].
  - rewrite (bsum_one n _ (r + 1)) by lia || (intros k Hk D; rewrite HL by assumption; destruct (Nat.eqb_spec k (r + 1)); [lia|ring]).
    rewrite HU, HL by lia. rewrite Nat.eqb_refl. destruct (Nat.eqb_spec (r + 1) (c + 1)), (Nat.eqb_spec r c); try lia; [reflexivity|ring].
Qed.
Lemma custom_spin D : spin t0 t1 tadd tmul tsub topp tinv tconj D (entry "Sz" D) (entry "S+" D) (entry "S-" D).
Proof.
  set (a := fun k => rt (N (k * (D + 1 - k)))).
  assert (HU : forall r c, r < S D -> c < S D -> entry "S+" D r c = if r =? c + 1 then a r else t0) by (intros; apply sp_entry; lia).
  assert (HL : forall r c, r < S D -> c < S D -> entry "S-" D r c = if c =? r + 1 then a c else t0) by (intros; apply sm_entry; lia).
  assert (HZ : forall r c, r < S D -> c < S D -> entry "Sz" D r c = if r =? c then tsub (N c) (half (N D)) else t0) by (intros; apply sz_entry; lia).
  assert (ZL : forall X r c, r < S D -> c < S D -> mmul (S D) (entry "Sz" D) X r c = tmul (tsub (N r) (half (N D))) (X r c)).
  { intros X r c Hr Hc. apply diag_l; [|assumption]. intros k Hk. rewrite HZ by assumption. destruct (Nat.eqb_spec r k); [now subst|reflexivity]. }
  assert (ZR : forall X r c, r < S D -> c < S D -> mmul (S D) X (entry "Sz" D) r c = tmul (X r c) (tsub (N c) (half (N D)))).
  { intros X r c Hr Hc. apply diag_r; [|assumption]. intros k Hk. now rewrite HZ by assumption. }
  assert (ASQ : forall k, tmul (a k) (a k) = N (k * (D + 1 - k))) by (intros k; apply root_sq).
  assert (UD : forall r c, r < S D -> c < S D -> mmul (S D) (entry "S+" D) (entry "S-" D) r c = if r =? c then N (r * (D + 1 - r)) else t0).
  { intros r c Hr Hc. rewrite (ladder_ud (S D) _ _ a r c HU HL Hr Hc), ASQ. destruct (Nat.eqb_spec r 0) as [->|]; reflexivity. }
  assert (DU : forall r c, r < S D -> c < S D -> mmul (S D) (entry "S-" D) (entry "S+" D) r c = if r =? c then N ((r + 1) * (D - r)) else t0).
  { intros r c Hr Hc. rewrite (ladder_du (S D) _ _ a r c HU HL Hr Hc), ASQ. replace (D + 1 - (r + 1)) with (D - r) by lia.
    destruct (Nat.eqb_spec (r + 1) (S D)); [|reflexivity]. replace (D - r) with 0 by lia. now rewrite Nat.mul_0_r. }
  pose proof (half_double (N D)) as HD. set (hD := half (N D)) in *.
  assert (CH : tconj hD = hD) by (unfold hD, StSpec.half; rewrite conj_mul, conj_inv, !conj_N by exact N2; reflexivity).
  unfold spin. cbv zeta. split; [|split; [|split; [|split; [|split]]]]; unfold adjoint, commutator, anticommutator, StSpec.msub, StSpec.mneg, StSpec.half; intros r c Hr Hc; unfold madj, PadeSpec.madd, PadeSpec.mscale.
  - rewrite HL, HU by assumption. destruct (c =? r + 1); [symmetry; apply (sn_root_real _ _ _ _ _ _ _ _ _ _ _ SN)|symmetry; apply conj_0].
  - rewrite !HZ by assumption. rewrite (Nat.eqb_sym c r). destruct (Nat.eqb_spec r c) as [->|]; [|symmetry; apply conj_0]. now rewrite conj_sub, conj_N, CH.
  - rewrite ZL, ZR, HU by assumption. destruct (Nat.eqb_spec r (c + 1)) as [->|]; [|ring]. rewrite N_add. cbn [ofN]. ring.
  - rewrite ZL, ZR, HL by assumption. destruct (Nat.eqb_spec c (r + 1)) as [->|]; [|ring]. rewrite N_add. cbn [ofN]. ring.
  - rewrite UD, DU, HZ by assumption. destruct (Nat.eqb_spec r c) as [->|]; [|ring]. rewrite !N_mul, !N_sub, !N_add by lia. cbn [ofN]. rewrite <- HD. ring.
  - rewrite ZL, UD, DU, HZ by assumption. unfold mone. destruct (Nat.eqb_spec r c) as [->|]; [|ring]. rewrite !N_mul, !N_sub, !N_add by lia.
    fold hD. change (tmul (N D) (tinv (N 2))) with hD. assert (Q2 : tadd t1 t1 <> t0) by (intros Q; apply N2; cbn [ofN]; transitivity (tadd t1 t1); [ring|exact Q]).
    cbn [ofN]. rewrite <- HD. field. exact Q2.
Qed.
Lemma custom_sz2 D : meq (D + 1) (entry "Sz2" D) (mmul (D + 1) (entry "Sz" D) (entry "Sz" D)).
Proof.
  intros r c Hr Hc. rewrite sz2_entry by assumption. erewrite diag_l; [|intros k Hk; rewrite sz_entry by assumption; destruct (Nat.eqb_spec r k); [subst; reflexivity|reflexivity]|assumption].
  rewrite sz_entry by assumption. destruct (Nat.eqb_spec r c) as [->|]; ring.
Qed.
(** * Boson *)
Notation bosons := (boson_ops t0 t1 tadd rt).
Definition bentry (name : string) (M : nat) : mat := match lookup (bosons M) name with Some l => filled l (zeros t0) | None => zeros t0 end.
Lemma a_entry M r c : r < 1 + M -> c < 1 + M -> bentry "A" M r c = if c =? r + 1 then rt (N c) else t0.
Proof.
  intros Hr Hc. unfold bentry. cbn. destruct (filled_map t0 (fun k => k) (fun k => k - 1) (fun k => rt (N k)) 1 M r c) as [P Q]; [intros; assumption|].
  destruct (Nat.eqb_spec c (r + 1)) as [->|ND]; [rewrite (P (r + 1)) by lia; reflexivity|]. apply Q. intros k Hk -> E. lia.
Qed.
Lemma ad_entry M r c : r < 1 + M -> c < 1 + M -> bentry "Adag" M r c = if r =? c + 1 then rt (N r) else t0.
Proof.
  intros Hr Hc. unfold bentry. cbn. destruct (filled_map t0 (fun k => k - 1) (fun k => k) (fun k => rt (N k)) 1 M r c) as [P Q]; [intros; lia|].
  destruct (Nat.eqb_spec r (c + 1)) as [->|ND]; [rewrite (P (c + 1)) by lia; reflexivity|]. apply Q. intros k Hk E E'. lia.
Qed.
Lemma n_entry M r c : r < 1 + M -> c < 1 + M -> bentry "N" M r c = if r =? c then N c else t0.
Proof.
  intros Hr Hc. change (filled (map (fun n => (n - 1, n - 1, N (n - 1))) (seq 1 (1 + M))) (zeros t0) r c = if r =? c then N c else t0).
  destruct (filled_map t0 (fun k => k - 1) (fun k => k - 1) (fun k => N (k - 1)) 1 (1 + M) r c) as [P Q]; [intros; lia|].
  destruct (Nat.eqb_spec r c) as [->|ND]; [|apply Q; intros k Hk E E'; lia]. rewrite (P (c + 1)) by lia. f_equal. lia.
Qed.
Lemma boson_ok M : boson t0 t1 tadd tmul tsub topp tconj rt M (bentry "N" M) (bentry "A" M) (bentry "Adag" M).
Proof.
  set (a := fun k => rt (N k)).
  assert (HU : forall r c, r < S M -> c < S M -> bentry "Adag" M r c = if r =? c + 1 then a r else t0) by (intros; apply ad_entry; lia).
  assert (HL : forall r c, r < S M -> c < S M -> bentry "A" M r c = if c =? r + 1 then a c else t0) by (intros; apply a_entry; lia).
  assert (HZ : forall r c, r < S M -> c < S M -> bentry "N" M r c = if r =? c then N c else t0) by (intros; apply n_entry; lia).
  assert (ZL : forall X r c, r < S M -> c < S M -> mmul (S M) (bentry "N" M) X r c = tmul (N r) (X r c)).
  { intros X r c Hr Hc. apply diag_l; [|assumption]. intros k Hk. rewrite HZ by assumption. destruct (Nat.eqb_spec r k); [now subst|reflexivity]. }
  assert (ZR : forall X r c, r < S M -> c < S M -> mmul (S M) X (bentry "N" M) r c = tmul (X r c) (N c)).
  { intros X r c Hr Hc. apply diag_r; [|assumption]. intros k Hk. now rewrite HZ by assumption. }
  assert (ASQ : forall k, tmul (a k) (a k) = N k) by (intros k; apply root_sq).
  assert (UD : forall r c, r < S M -> c < S M -> mmul (S M) (bentry "Adag" M) (bentry "A" M) r c = if r =? c then N r else t0).
  { intros r c Hr Hc. rewrite (ladder_ud (S M) _ _ a r c HU HL Hr Hc), ASQ. destruct (Nat.eqb_spec r 0) as [->|]; reflexivity. }
  unfold boson. cbv zeta. split; [|split; [|split; [|split; [|split]]]].
  - intros r c Hr Hc. unfold madj. rewrite HL, HU by assumption. destruct (r =? c + 1); [symmetry; apply (sn_root_real _ _ _ _ _ _ _ _ _ _ _ SN)|symmetry; apply conj_0].
  - intros k Hk. rewrite HL by lia. destruct (Nat.eqb_spec (S k) (k + 1)); [reflexivity|lia].
  - intros r c Hr Hc. rewrite UD, HZ by assumption. destruct (Nat.eqb_spec r c) as [->|]; reflexivity.
  - intros r c Hr Hc. unfold commutator, StSpec.msub. rewrite ZL, ZR, HU by assumption. destruct (Nat.eqb_spec r (c + 1)) as [->|]; [|ring]. rewrite N_add. cbn [ofN]. ring.
  - intros r c Hr Hc. unfold commutator, StSpec.msub, StSpec.mneg. rewrite ZL, ZR, HL by assumption. destruct (Nat.eqb_spec c (r + 1)) as [->|]; [|ring]. rewrite N_add. cbn [ofN]. ring.
  - intros r c Hr Hc. unfold commutator, StSpec.msub. rewrite UD, (ladder_du (S M) _ _ a r c HU HL Hr Hc), ASQ by assumption.
    destruct (Nat.eqb_spec r c) as [->|]; [|ring]. destruct (Nat.eqb_spec (c + 1) (S M)), (Nat.eqb_spec c M); try lia; [subst c; ring|]. rewrite N_add. cbn [ofN]. ring.
Qed.

(** * The operators in the tables *)
Definition fluxes (qs : option (list charge)) (l : list (nat * nat * T)) : bool :=
  match qs, l with
  | Some q, (i, o, _) :: l' => forallb (fun e => flux_eqb (elt_flux q (fst (fst e)) (snd (fst e))) (elt_flux q i o)) l'
  | _, _ => true
  end.
Lemma fluxes_set qs l : fluxes qs l = true -> set_all qs None l (zeros t0) = Ok (filled l (zeros t0)).
Proof.
  intros H. destruct l as [|[[i o] v] l]; [reflexivity|]. destruct qs as [q|]; [|apply set_dense].
  apply (set_ok _ _ _ (elt_flux q i o)). intros q' [= <-] i' o' v' [E|Hin]; [congruence|].
  cbn [fluxes] in H. rewrite forallb_forall in H. specialize (H _ Hin). cbn [fst snd] in H. now apply flux_eqb_eq.
Qed.
Notation ops := (ops t0 t1 tadd tmul tsub topp tinv rt tg).
Lemma op_tab k a qs name l : states k a = Ok qs -> lookup (ops k) name = Some l -> SiteOpsModel.split_star name = None -> String.eqb name "Id" = false ->
  fluxes qs l = true -> op k a name = Ok (inl (filled l (zeros t0))).
Proof.
  intros E L ST ID FL. unfold StModel.op. rewrite E. cbn [obind]. generalize (String.length name) as fuel.
  assert (Q : siteop k qs name = Ok (inl (filled l (zeros t0)))) by (unfold StModel.siteop; rewrite L, (fluxes_set _ _ FL); reflexivity).
  intros [|fuel]; cbn [StModel.op_fuel]; rewrite ID, ST, Q; destruct (String.eqb name "F"); reflexivity.
Qed.
Lemma op_err k a qs name l : states k a = Ok (Some qs) -> lookup (ops k) name = Some l -> SiteOpsModel.split_star name = None -> String.eqb name "Id" = false -> String.eqb name "F" = false ->
  fluxes (Some qs) l = false -> op k a name = Err.
Proof.
  intros E L ST ID NF FL. unfold StModel.op. rewrite E. cbn [obind]. generalize (String.length name) as fuel.
  assert (Q : siteop k (Some qs) name = Err).
  { unfold StModel.siteop. rewrite L. destruct (set_all (Some qs) None l (zeros t0)) as [M| |] eqn:S; cbn [obind]; [|reflexivity|].
    - exfalso. destruct (set_flux _ _ _ _ S) as [f Hf]. destruct l as [|[[i o] v] l]; [discriminate|]. cbn [fluxes] in FL.
      assert (W : forallb (fun e => flux_eqb (elt_flux qs (fst (fst e)) (snd (fst e))) (elt_flux qs i o)) l = true); [|congruence].
      apply forallb_forall. intros [[i' o'] v'] Hin. apply flux_eqb_eq. cbn [fst snd]. rewrite (Hf i o v (or_introl eq_refl)). apply (Hf i' o' v'). now right.
    - exfalso. revert S. generalize (@None (list Z)) (zeros t0). clear. induction l as [|[[i o] v] l IH]; intros fl M S; cbn [StModel.set_all] in S; [discriminate|].
      destruct (flux_eqb _ _); [eauto|discriminate]. }
  intros [|fuel]; cbn [StModel.op_fuel]; rewrite ID, ST, NF, Q; reflexivity.
Qed.
Lemma isqrt2 : ISqrt2 t0 t1 tadd tinv rt = tmul (rt (N 2)) (tinv (N 2)).
Proof.
  unfold ISqrt2. pose proof (root_sq 2) as R. assert (Z : rt (N 2) <> t0).
  { intros Q. rewrite Q in R. apply N2. rewrite <- R. ring. }
  rewrite <- R at 3. field. exact Z.
Qed.

Lemma ofZ_sub a b : ofZ t0 t1 tadd topp (Z.of_nat a - Z.of_nat b) = tsub (N a) (N b).
Proof.
  unfold ofZ. destruct (Z.of_nat a - Z.of_nat b)%Z eqn:E.
  - replace a with b by lia. ring.
  - replace (Pos.to_nat p) with (a - b) by lia. now rewrite N_sub by lia.
  - replace (Pos.to_nat p) with (b - a) by lia. rewrite N_sub by lia. ring.
Qed.
(** * Products and names *)
Lemma split_app x y : SiteOpsModel.split_star x = None -> SiteOpsModel.split_star (x ++ "*" ++ y)%string = Some (x, y).
Proof.
  induction x as [|c x IH]; intros H; cbn [append SiteOpsModel.split_star] in *; [reflexivity|].
  destruct (Ascii.eqb c _); [discriminate|]. destruct (SiteOpsModel.split_star x) as [[? ?]|]; [discriminate|]. now rewrite IH.
Qed.
Lemma split_length s : forall a b, SiteOpsModel.split_star s = Some (a, b) -> String.length s = String.length a + 1 + String.length b.
Proof.
  induction s as [|c s IH]; intros a b H; cbn [SiteOpsModel.split_star] in H; [discriminate|].
  destruct (Ascii.eqb c _); [injection H as <- <-; reflexivity|]. destruct (SiteOpsModel.split_star s) as [[a' b']|]; [|discriminate].
  injection H as <- <-. cbn [String.length]. rewrite (IH a' b' eq_refl). reflexivity.
Qed.
Lemma op_fuel_enough k qs : forall fuel fuel' name, String.length name <= fuel -> String.length name <= fuel' -> op_fuel fuel k qs name = op_fuel fuel' k qs name.
Proof.
  induction fuel as [|fuel IH]; intros fuel' name H H'.
  - destruct name; [|cbn [String.length] in H; lia]. destruct fuel'; reflexivity.
  - destruct fuel' as [|fuel']; [destruct name; [reflexivity|cbn [String.length] in H'; lia]|]. cbn [StModel.op_fuel].
    destruct (String.eqb name "Id"); [reflexivity|]. destruct (String.eqb name "F"); [reflexivity|].
    destruct (SiteOpsModel.split_star name) as [[a b]|] eqn:E; [|reflexivity]. apply split_length in E.
    rewrite (IH fuel' a), (IH fuel' b) by lia. reflexivity.
Qed.
Lemma op_star k a x y A B : SiteOpsModel.split_star x = None -> op k a x = Ok (inl A) -> op k a y = Ok (inl B) ->
  op k a (x ++ "*" ++ y)%string = Ok (inl (mmul (dim k) A B)).
Proof.
  intros NS HA HB. unfold StModel.op in *. destruct (states k a) as [qs| |]; cbn [obind] in *; [|discriminate..].
  pose proof (split_app x y NS) as SP. pose proof (split_length _ _ _ SP) as L. set (s := (x ++ "*" ++ y)%string) in *.
  destruct (String.length s) as [|f] eqn:F; [lia|]. cbn [StModel.op_fuel].
  assert (I1 : String.eqb s "Id" = false) by (apply String.eqb_neq; intros ->; cbn in SP; discriminate).
  assert (I2 : String.eqb s "F" = false) by (apply String.eqb_neq; intros ->; cbn in SP; discriminate).
  rewrite I1, I2, SP. rewrite (op_fuel_enough k qs f (String.length x) x), HA by lia. cbn [obind].
  rewrite (op_fuel_enough k qs f (String.length y) y), HB by lia. reflexivity.
Qed.
Lemma identity_ok k a qs : states k a = Ok qs -> exists I, identity k qs = Ok (inl I) /\ meq (dim k) I (mone t0 t1).
Proof.
  intros E. unfold StModel.identity. set (l := map (fun j => (j, j, t1)) (seq 0 (dim k))).
  exists (filled l (zeros t0)). split.
  - destruct qs as [q|]; [|now rewrite set_dense]. destruct (states_wf _ _ _ E) as [[ms W] L].
    rewrite (set_ok (Some q) l (zeros t0) (map (fun _ => 0%Z) ms)); [reflexivity|]. intros q' [= <-] i o v Hin. unfold l in Hin. apply in_map_iff in Hin. destruct Hin as (j & [= <- <- <-] & Hj).
    apply in_seq in Hj. unfold elt_flux. apply elt_flux_self, W, nth_In. lia.
  - intros r c Hr Hc. unfold l, mone. destruct (filled_map t0 (fun k => k) (fun k => k) (fun _ => t1) 0 (dim k) r c) as [P Q]; [intros; assumption|].
    destruct (Nat.eqb_spec r c) as [->|D]; [apply (P c); lia|]. apply Q. intros j _ -> E'. congruence.
Qed.
End Sites.
Lemma fluxes_linear {T} n (lab : nat -> Z) (f g : nat -> nat) (v : nat -> T) a m d qs :
  qs = None \/ qs = Some (repeat [] n) \/ qs = Some (map (fun j => [(lab j, 1%Z)]) (seq 0 n)) ->
  (forall k, a <= k < a + m -> f k < n /\ g k < n /\ (lab (g k) - lab (f k) = d)%Z) ->
  fluxes qs (map (fun k => (f k, g k, v k)) (seq a m)) = true.
Proof.
  intros HQ HK. destruct HQ as [->|HQ]; [reflexivity|].
  assert (Q : exists q F, qs = Some q /\ forall k, a <= k < a + m -> elt_flux q (f k) (g k) = F).
  { destruct HQ as [->| ->].
    - exists (repeat [] n), []. split; [reflexivity|]. intros k _. unfold elt_flux. assert (R : forall i, nth i (repeat ([] : charge) n) [] = []) by (intros i; destruct (nth_in_or_default i (repeat ([] : charge) n) []) as [H|H]; [now apply repeat_spec in H|exact H]). now rewrite !R.
    - exists (map (fun j => [(lab j, 1%Z)]) (seq 0 n)), [d]. split; [reflexivity|]. intros k Hk. destruct (HK k Hk) as (H1 & H2 & H3). unfold elt_flux.
      assert (R : forall i, i < n -> nth i (map (fun j => [(lab j, 1%Z)]) (seq 0 n)) [] = [(lab i, 1%Z)]).
      { intros i Hi. rewrite (nth_indep _ [] [(lab 0, 1%Z)]) by (rewrite map_length, seq_length; exact Hi). rewrite (map_nth (fun j => [(lab j, 1%Z)])), seq_nth by exact Hi. reflexivity. }
      rewrite !R by assumption. cbn [combine map]. unfold reduce. cbn. now rewrite H3. }
  destruct Q as (q & F & -> & HF). destruct m as [|m]; [reflexivity|]. cbn [seq map fluxes]. apply forallb_forall. intros e He. apply in_map_iff in He. destruct He as (k & <- & Hk). apply in_seq in Hk.
  cbn [fst snd]. apply flux_eqb_eq. rewrite !HF by lia. reflexivity.
Qed.
Lemma str_inj a b : str a = str b -> a = b.
Proof.
  unfold str. intros E. apply (f_equal NilEmpty.int_of_string) in E. rewrite !NilEmpty.isi in E. injection E as E. apply (f_equal Z.of_int) in E. now rewrite !DecimalZ.of_to in E.
Qed.
Lemma find_state_ok label name : forall left n m,
  find_state label name left n = Ok m <-> (n <= m < n + left /\ label m = name /\ forall j, n <= j < m -> label j <> name).
Proof.
  induction left as [|left IH]; intros n m; cbn [find_state]; [split; [discriminate|lia]|].
  destruct (String.eqb_spec name (label n)) as [E|E].
  - split; [intros [= <-]; repeat split; [lia|lia|now symmetry|intros; lia]|]. intros (H1 & H2 & H3). destruct (Nat.eq_dec n m) as [->|D]; [reflexivity|]. exfalso. apply (H3 n); [lia|now symmetry].
  - rewrite IH. split; intros (H1 & H2 & H3).
    + repeat split; [lia|lia|assumption|]. intros j Hj. destruct (Nat.eq_dec j n) as [->|D]; [congruence|apply H3; lia].
    + assert (n <> m) by (intros ->; congruence). repeat split; [lia|lia|assumption|]. intros j Hj. apply H3. lia.
Qed.
Lemma find_state_res label name left : forall n, find_state label name left n <> UB.
Proof. induction left as [|left IH]; intros n; cbn [find_state]; [discriminate|]. destruct (String.eqb _ _); [discriminate|apply IH]. Qed.

(** The cases of the arguments; the matrices element by element. *)
Ltac by_states E :=
  cbn [states] in E; repeat match type of E with context [if ?b then _ else _] => destruct b end; try discriminate E; injection E as <-.
Ltac get_op E := eapply op_tab; [exact E|reflexivity|reflexivity|reflexivity|by_states E; reflexivity].
