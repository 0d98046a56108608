(** Statement vocabulary for exact eigenvalues (property C73); independent of the
    model. *)
From Coq Require Import Reals.
From Verif Require Import Spec_Hyper Spec_Lanczos.
Open Scope R_scope.

(** [lambda] is an eigenvalue of the real matrix [A] of order [d]. *)
Definition eigenvalue_of (d : nat) (A : nat -> nat -> R) (lambda : R) : Prop :=
  exists z : nat -> R, (exists i, (i < d)%nat /\ z i <> 0) /\
    forall i, (i < d)%nat -> act (A := reals) d A z i = lambda * z i.

(** The quadratic form of [A] lies between [lo] and [hi] times the squared length. *)
Definition form_between (d : nat) (A : nat -> nat -> R) (lo hi : R) : Prop :=
  forall z, lo * form (A := reals) d (mid (A := reals)) z <= form (A := reals) d A z <= hi * form (A := reals) d (mid (A := reals)) z.
