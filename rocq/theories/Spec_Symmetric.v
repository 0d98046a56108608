(** Statement vocabulary for the estimate for Hermitian matrices (property C78);
    independent of the model. *)
From Coq Require Import Reals.
From Verif Require Import Spec_Hyper Spec_Lanczos.
Open Scope R_scope.

(** The quadratic form of [X] lies between [lo] and [hi] times the squared length. *)
Definition range_between {A : star} (d : nat) (X : amat A) (lo hi : R) : Prop :=
  forall z, lo * form d mid z <= form d X z <= hi * form d mid z.
(** [z] is an eigenvector of [X]. *)
Definition eigenvector {A : star} (d : nat) (X : amat A) (lambda : R) (z : nat -> el A) : Prop :=
  (exists r, (r < d)%nat /\ z r <> s0) /\ forall r, (r < d)%nat -> act d X z r = sscal lambda (z r).
