(** Specification vocabulary for the eigenvalue estimates (properties C62 and C63):
    the range and the norm of the weighted slack.  For a semidefinite [W] and a
    Hermitian [S] the operator [W^{1/2} S W^{1/2}] has the quadratic form
    [z^* W S W z] relative to [z^* W z].  Independent of the model. *)
From Coq Require Import Reals.
From Verif Require Import Spec_Hyper.
Open Scope R_scope.

Section Weighted.
  Context {A : star}.
  Variables (d : nat) (W S : amat A).
  Definition weighted (z : nat -> el A) : R := form d (mmul d W (mmul d S W)) z.
  (** The spectrum of [W^{1/2} S W^{1/2}] lies between [lo] and [hi]. *)
  Definition spectrum_between (lo hi : R) : Prop :=
    forall z, lo * form d W z <= weighted z <= hi * form d W z.
  (** The operator norm of [e + W^{1/2} S W^{1/2}] is at most [t]. *)
  Definition norm_at_most (e t : R) : Prop :=
    forall z, Rabs (e * form d W z + weighted z) <= t * form d W z.
  (** Matrix times vector. *)
  Definition act (X : amat A) (z : nat -> el A) : nat -> el A := fun r => ssum d (fun c => smul (X r c) (z c)).
  (** [z] is an eigenvector of [S W] to the value [lambda] up to the relative error
      [eps], measured in the inner product of [W]. *)
  Definition near_eigenvector (lambda eps : R) (z : nat -> el A) : Prop :=
    0 < form d W z /\
    form d W (fun r => sadd (act S (act W z) r) (sscal (- lambda) (z r))) <= eps * eps * form d W z.
End Weighted.
