(** Statement vocabulary for two-sided linear inequalities. *)
From Coq Require Import List Reals.
From Verif Require Import Spec_Linear.
Import ListNotations.
Open Scope R_scope.

(** [a . y]; entry [j] of [a] belongs to variable [j]. *)
Definition product (a y : list R) : R := total (fun j => nth j a 0 * nth j y 0) (seq 0 (length a)).

(** [lb <= a . y <= ub] for every row. *)
Definition bounds_hold (rows : list (list R * R * R)) (y : list R) : Prop :=
  forall a lb ub, In (a, lb, ub) rows -> lb <= product a y <= ub.

(** The same without upper bounds of at least [10^8] and lower bounds of at most
    [-10^8]; bounds that coincide are kept. *)
Definition kept_bounds_hold (rows : list (list R * R * R)) (y : list R) : Prop :=
  forall a lb ub, In (a, lb, ub) rows ->
    (lb = ub -> product a y = lb) /\
    (lb <> ub -> ub < 10 ^ 8 -> product a y <= ub) /\
    (lb <> ub -> - 10 ^ 8 < lb -> lb <= product a y).

(** [a . y <= b], [a . y = b] for every pair. *)
Definition upper_rows (rows : list (list R * R)) (y : list R) : Prop := forall a b, In (a, b) rows -> product a y <= b.
Definition equal_rows (rows : list (list R * R)) (y : list R) : Prop := forall a b, In (a, b) rows -> product a y = b.

(** The row and its bound are not all zero. *)
Definition nonzero_row (a : list R) (b : R) : Prop := b <> 0 \/ exists x, In x a /\ x <> 0.
