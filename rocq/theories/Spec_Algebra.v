(** Statement-level notions for the helpers of the matrix algebras. *)
From Coq Require Import List Arith Reals.
From Verif Require Import DenseModel Spec_Hyper.
Open Scope R_scope.

Section Columns.
  Variable A : star.
  Variables rows cols : nat.
  (** [Q^* Q] is the identity. *)
  Definition unitary_columns (Q : amat A) : Prop :=
    forall a b, (a < cols)%nat -> (b < cols)%nat -> mmul rows (mconj Q) Q a b = mid a b.
  (** No nontrivial right linear combination of the columns vanishes. *)
  Definition independent_columns (Q : amat A) : Prop :=
    forall x : nat -> el A, (forall r, (r < rows)%nat -> ssum cols (fun c => smul (Q r c) (x c)) = s0) ->
    forall c, (c < cols)%nat -> x c = s0.
  (** [Q = Q' R] with [R] upper triangular and positive diagonal. *)
  Definition triangular_factor (Q Q' : amat A) : Prop := exists R : amat A,
    (forall r c, (r < rows)%nat -> (c < cols)%nat -> Q r c = ssum (S c) (fun t => smul (Q' r t) (R t c))) /\
    (forall c, (c < cols)%nat -> exists rho, 0 < rho /\ R c c = sscal rho s1).
End Columns.
Arguments unitary_columns {A}. Arguments independent_columns {A}. Arguments triangular_factor {A}.

(** [X z = z lambda] for some [z <> 0]. *)
Definition eigenvalue_of (k d : nat) (X : amat (cd k)) (lambda : R) : Prop :=
  exists z : nat -> el (cd k), (exists r, (r < d)%nat /\ z r <> s0) /\
    forall r, (r < d)%nat -> ssum d (fun c => smul (X r c) (z c)) = sscal lambda (z r).
(** Powers; [p_0 1 + p_1 X + ... + p_(m-1) X^(m-1)]. *)
Fixpoint mpower {A : star} (d : nat) (X : amat A) (j : nat) : amat A :=
  match j with O => mid | S j' => mmul d X (mpower d X j') end.
Definition mpoly {A : star} (d m : nat) (p : nat -> R) (X : amat A) : amat A :=
  fun r c => ssum m (fun j => sscal (p j) (mpower d X j r c)).
(** Some monic polynomial of degree [d] annihilates [X]. *)
Definition annihilated {A : star} (d : nat) (X : amat A) : Prop :=
  exists p, p d = 1 /\ same_matrix d (mpoly d (S d) p X) (fun _ _ => s0).
(** No nonzero polynomial of degree less than [d] annihilates [X]. *)
Definition powers_independent {A : star} (d : nat) (X : amat A) : Prop :=
  forall p, same_matrix d (mpoly d d p X) (fun _ _ => s0) -> forall j, (j < d)%nat -> p j = 0.
