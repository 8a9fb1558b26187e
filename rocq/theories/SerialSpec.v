(** What reading back means, and which values the formats can hold. *)
From Coq Require Import List ZArith.
From Coq Require Import Init.Byte.
From Verif Require Import Util TagSetModel TagSetProps QnModel IndexModel SerialModel.
Import ListNotations.

(** Reading the bytes [w] of [x] into [old], whatever follows them in the stream, gives exactly [x]
    and leaves the stream at what follows, not failed. *)
Definition reads_back {T : Type} (rd : reader T) (old : T) (w : bytes) (x : T) : Prop :=
  forall rest, rd old (Some (w ++ rest)) = Ok (x, Some rest).

Definition int_ok (z : Z) : Prop := (- 2 ^ 31 <= z < 2 ^ 31)%Z.
Definition long_ok (z : Z) : Prop := (- 2 ^ 63 <= z < 2 ^ 63)%Z.
Definition size_ok (z : Z) : Prop := (0 <= z < 2 ^ 64)%Z.
Definition len_ok {T : Type} (l : list T) : Prop := (Z.of_nat (length l) < 2 ^ 64)%Z.
(** A Real has eight bytes. *)
Definition real_ok (r : real) : Prop := length r = 8.
Definition cplx_ok (z : cplx) : Prop := real_ok (fst z) /\ real_ok (snd z).
(** A vector the memory can hold, of such elements. *)
Definition vec_ok {T : Type} (ok : T -> Prop) (l : list T) : Prop := len_ok l /\ Forall ok l.

(** A stored quantum number: reduced modulo |mod|, which is small enough for QNum::set. *)
Definition qnum_ok (q : QNum) : Prop :=
  int_ok (qn_val q) /\ (- 2 ^ 31 < qn_mod q < 2 ^ 31)%Z /\
  ((1 < Z.abs (qn_mod q))%Z -> (0 <= qn_val q < Z.abs (qn_mod q))%Z /\ ((Z.abs (qn_mod q) + 1) * qn_val q < 2 ^ 31)%Z).
Definition qn_ok (q : QN) : Prop := length q = 4 /\ Forall qnum_ok q.

(** Tags made by any calls other than noTags, and a prime level an int can hold. *)
Definition tags_ok (ts : TagSet) : Prop := api_clean ts /\ int_ok (ts_plev ts).
Definition no_tags (ts : TagSet) : Prop := api_clean ts /\ forall t, ~ In t (ts_list ts).

Definition index_ok (J : index) : Prop :=
  ix_id J <> 0%N /\ size_ok (Z.of_N (ix_id J)) /\ int_ok (ix_dim J) /\ tags_ok (ix_tags J) /\
  vec_ok (fun b => qn_ok (fst b) /\ long_ok (snd b)) (ix_qns J).
Definition indstr_ok (x : indstr) : Prop := index_ok (fst x) /\ size_ok (snd x).

Definition blof_ok (x : blof) : Prop := vec_ok long_ok (fst x) /\ long_ok (snd x).
Definition pair_ok (x : Z * Z) : Prop := size_ok (fst x) /\ size_ok (snd x).
Definition triple_ok (x : Z * Z * Z) : Prop := size_ok (fst (fst x)) /\ size_ok (snd (fst x)) /\ size_ok (snd x).
Definition store_ok (x : store) : Prop :=
  match x with
  | Null | Comb => True
  | DenseR l => vec_ok real_ok l
  | DenseC l => vec_ok cplx_ok l
  | DiagR v n l | QDiagR v n l => real_ok v /\ size_ok n /\ vec_ok real_ok l
  | DiagC v n l | QDiagC v n l => cplx_ok v /\ size_ok n /\ vec_ok cplx_ok l
  | QDenseR o l => vec_ok blof_ok o /\ vec_ok real_ok l
  | QDenseC o l => vec_ok blof_ok o /\ vec_ok cplx_ok l
  | QComb r l => vec_ok pair_ok r /\ vec_ok triple_ok l
  | ScalR v => real_ok v
  | ScalC v => cplx_ok v
  end.
Definition it_ok (T : itensor) : Prop := vec_ok indstr_ok (it_inds T) /\ store_ok (it_store T).
(** N sites, so N+2 tensors. *)
Definition mps_ok (M : mps) : Prop :=
  (0 <= m_n M)%Z /\ int_ok (m_n M) /\ Z.of_nat (length (m_a M)) = (m_n M + 2)%Z /\
  Forall it_ok (m_a M) /\ int_ok (m_l M) /\ int_ok (m_r M).
Definition sweeps_ok (w : sweeps) : Prop :=
  vec_ok int_ok (sw_max w) /\ vec_ok int_ok (sw_min w) /\ vec_ok real_ok (sw_cut w) /\
  vec_ok int_ok (sw_iter w) /\ vec_ok real_ok (sw_noise w) /\ int_ok (sw_n w).

(** Same name and type, and the same value of that type. *)
Definition same_val (a b : wval) : Prop :=
  wv_name a = wv_name b /\ wv_type a = wv_type b /\
  match wv_type a with VString => wv_s a = wv_s b | _ => wv_r a = wv_r b end.
Definition val_ok (v : wval) : Prop := len_ok (wv_name v) /\ len_ok (wv_s v) /\ real_ok (wv_r v).
