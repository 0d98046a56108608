(** Vocabulary for cone constraints of the solver: sequences of operations, reported
    numbers, constraint blocks. *)
From Coq Require Import List Arith Reals.
From Verif Require Import Base DenseModel JordanModel SocModel Spec_Soc.
Open Scope R_scope.

(** ** Operations on a second-order cone constraint *)

Inductive soc_op := SPrep (k : R) (y : vec) | STake (step : R) | SReset | SSlack (y : vec) (k : R) | SBlock (initialize : bool) (sys : schur).
Definition soc_do (o : soc) (op : soc_op) : res soc :=
  match op with
  | SPrep k y => r <- SPrepareStep o k y ;; Ok (fst r)
  | STake s => Ok (STakeStep o s)
  | SReset => Ok (SSetIdentity o)
  | SSlack y k => _ <- SWeightedSlack o y k ;; Ok o
  | SBlock i sys => _ <- SSchur o i sys ;; Ok o
  end.

(** ** Operations on a quadratic cone constraint *)

Inductive qc_query := QSlack (y : vec) (k : R) | QBlock (initialize : bool) (sys : schur).
Definition qc_ask (o : qcone) (q : qc_query) : qcone :=
  match q with QSlack y k => fst (QWeightedSlack o y k) | QBlock i sys => fst (QSchur o i sys) end.
(** One iteration of the solver: queries, then a prepared step that is either taken
    or given up in favour of the identity (conex/cone_program.cc:356-437). *)
Record qc_round := mkRound { qr_ask : list qc_query; qr_k : R; qr_y : vec; qr_step : option R }.
Definition qc_iterate (o : qcone) (r : qc_round) : qcone :=
  let o := fold_left qc_ask (qr_ask r) o in
  let o := fst (QPrepareStep o (qr_k r) (qr_y r)) in
  match qr_step r with Some s => QTakeStep o s | None => QSetIdentity o end.

(** ** Reported numbers *)

Definition is_max_abs (m a b : R) : Prop := Rabs a <= m /\ Rabs b <= m /\ (m = Rabs a \/ m = Rabs b).

(** The report for the weighted slack [v]. *)
Definition slack_report (B : vec -> vec -> R) (v : elem) (r : R * R * R * R) : Prop :=
  let '(lo, hi, frob, tr) := r in
  lo <= hi /\ (forall a, eigenvalue B v a <-> a = lo \/ a = hi) /\ frob = lo * lo + hi * hi /\ frob = 2 * inner B v v /\
  tr = lo + hi /\ tr = 2 * fst v.

(** The point [Q(s) (e + d)]. *)
Definition dual_point (B : vec -> vec -> R) (s d : elem) : elem := quadrep B s (jadd jone d).

(** ** Constraint blocks *)

(** The defining formulas with the Jordan inner product [2 x^T y]. *)
Definition cone_block (B : vec -> vec -> R) (A : nat -> elem) (c W : elem) (sys : schur) (mult : R) (old : schur) (m : nat) : Prop :=
  (forall i j, (i < m)%nat -> (j < m)%nat -> sc_G sys i j = mult * sc_G old i j + 2 * inner B (A i) (quadrep B W (A j))) /\
  (forall i, (i < m)%nat -> sc_AW sys i = mult * sc_AW old i + 2 * inner B (A i) W) /\
  (forall i, (i < m)%nat -> sc_AQc sys i = mult * sc_AQc old i + 2 * inner B (A i) (quadrep B W c)) /\
  sc_wc sys = mult * sc_wc old + 2 * inner B W c /\
  sc_cQc sys = mult * sc_cQc old + 2 * inner B c (quadrep B W c).

(** The same for a linear constraint with [r] rows: [A^T diag(w^2) A] and so on. *)
Definition linear_block (r : nat) (A : mat) (c w : vec) (sys : schur) (mult : R) (old : schur) (m : nat) : Prop :=
  (forall i j, (i < m)%nat -> (j < m)%nat -> sc_G sys i j = mult * sc_G old i j + rsum r (fun k => A k i * (w k * w k * A k j))) /\
  (forall i, (i < m)%nat -> sc_AW sys i = mult * sc_AW old i + rsum r (fun k => A k i * w k)) /\
  (forall i, (i < m)%nat -> sc_AQc sys i = mult * sc_AQc old i + rsum r (fun k => A k i * (w k * w k * c k))) /\
  sc_wc sys = mult * sc_wc old + rsum r (fun k => w k * c k) /\
  sc_cQc sys = mult * sc_cQc old + rsum r (fun k => c k * (w k * w k * c k)).

