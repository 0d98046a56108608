(** Specification vocabulary for solves of programs with Hermitian constraints
    (property C66).  Independent of the model apart from the constraint data. *)
From Coq Require Import List Arith Reals.
From Verif Require Import Spec_Linear.
From Verif Require Spec_Hyper.
Import ListNotations.
Open Scope R_scope.

(** [X = 2 V - t V S V] for a positive definite matrix [V] of order [n]; matrices
    have [h] components. *)
Definition scaled_pair (h n : nat) (t : R) (S X : nat -> nat -> nat -> R) : Prop :=
  exists k V, (k <= 2)%nat /\ h = (2 ^ k)%nat /\
    let M := Spec_Hyper.matrix_of k in
    Spec_Hyper.posdef n (M V) /\
    Spec_Hyper.same_matrix n (M X)
      (Spec_Hyper.madd (Spec_Hyper.mscal 2 (M V)) (Spec_Hyper.mscal (- t) (Spec_Hyper.mmul n (Spec_Hyper.mmul n (M V) (M S)) (M V)))).

(** Estimates of the eigenvalues of the pencil [W S W - l W], computed from [W S] and
    [W], are accurate up to [eps]; without an estimate [S] is zero. *)
Definition accurate (eps : R)
  (estimate : nat -> nat -> nat -> (nat -> nat -> nat -> R) -> (nat -> nat -> nat -> R) -> option (R * R)) : Prop :=
  forall draws k n WS W S, (k <= 2)%nat -> (0 < n)%nat ->
    let M := Spec_Hyper.matrix_of k in
    Spec_Hyper.posdef n (M W) -> Spec_Hyper.hermitian_matrix n (M S) ->
    Spec_Hyper.same_matrix n (M WS) (Spec_Hyper.mmul n (M W) (M S)) ->
    match estimate draws (2 ^ k)%nat n WS W with
    | Some (lo, hi) => forall z,
        let w := Spec_Hyper.form n (M W) z in
        let v := Spec_Hyper.form n (Spec_Hyper.mmul n (Spec_Hyper.mmul n (M W) (M S)) (M W)) z in
        (lo - eps) * w <= v <= (hi + eps) * w
    | None => forall t r c, (t < 2 ^ k)%nat -> (r < n)%nat -> (c < n)%nat -> S t r c = 0
    end.

(** Sum of the squares. *)
Definition square_sum (l : list R) : R := total (fun k => nth k l 0 * nth k l 0) (seq 0 (length l)).

(** Some entry of a matrix of order [n] with [h] components is not zero. *)
Definition nonzero (h n : nat) (S : nat -> nat -> nat -> R) : Prop :=
  exists t r c, (t < h)%nat /\ (r < n)%nat /\ (c < n)%nat /\ S t r c <> 0.
