(** Specification vocabulary for the geodesic update (property C65): the terms
    [W], [W S W], [W S W S W], ... of [W^(1/2) exp(W^(1/2) S W^(1/2)) W^(1/2)] before
    division by factorials.  Independent of the model. *)
From Coq Require Import Reals.
From Verif Require Import Spec_Hyper.

Fixpoint geodesic_term {A : star} (d : nat) (W S : amat A) (i : nat) : amat A :=
  match i with O => W | Datatypes.S j => mmul d W (mmul d S (geodesic_term d W S j)) end.
