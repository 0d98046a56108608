(** Specification vocabulary for linear systems and right-hand sides;
    independent of the model. *)
From Coq Require Import List Arith Reals.
Import ListNotations.
Open Scope R_scope.

(** Sum of [f] over a list. *)
Definition total {A} (f : A -> R) (l : list A) : R := fold_right (fun a s => f a + s) 0 l.

(** Row [u] of [M x] for order [n]. *)
Definition row_times (n : nat) (M : nat -> nat -> R) (x : nat -> R) (u : nat) : R :=
  total (fun v => M u v * x v) (seq 0 n).

(** [x] solves [M x = b] (order [n]). *)
Definition solves (n : nat) (M : nat -> nat -> R) (x b : nat -> R) : Prop :=
  forall u, (u < n)%nat -> row_times n M x u = b u.

(** [M] is nonsingular (injective). *)
Definition nonsingular (n : nat) (M : nat -> nat -> R) : Prop :=
  forall x, solves n M x (fun _ => 0) -> forall u, (u < n)%nat -> x u = 0.

(** Contribution to variable [v] of a vector [f] indexed by the positions of the
    variable list [c]. *)
Definition placed (c : list nat) (f : nat -> R) (v : nat) : R :=
  total (fun a => if (nth a c 0 =? v)%nat then f a else 0) (seq 0 (length c)).

(** Positive definiteness (order [n]). *)
Definition positive_definite (n : nat) (M : nat -> nat -> R) : Prop :=
  forall x, (exists u, (u < n)%nat /\ x u <> 0) ->
    0 < total (fun u => x u * row_times n M x u) (seq 0 n).

(** [s] permutes [0 .. n-1]. *)
Definition permutes (n : nat) (s : nat -> nat) : Prop :=
  (forall i, (i < n)%nat -> (s i < n)%nat) /\
  (forall i j, (i < n)%nat -> (j < n)%nat -> s i = s j -> i = j).

(** Symmetric matrix given by its lower triangle. *)
Definition from_lower (A : nat -> nat -> R) : nat -> nat -> R :=
  fun r c => A (Nat.max r c) (Nat.min r c).

(** Unit lower triangular matrix given by its strictly lower part. *)
Definition unit_from_lower (A : nat -> nat -> R) : nat -> nat -> R :=
  fun r t => if (t <? r)%nat then A r t else if (t =? r)%nat then 1 else 0.
