(** Statement-level notions for the object that keeps an [LDL^T] factorization. *)
From Coq Require Import List Arith Reals.
From Verif Require Import DenseModel RldltModel.
Import ListNotations.
Open Scope R_scope.

Definition symmetric (n : nat) (A : mat) : Prop := forall r c, (r < n)%nat -> (c < n)%nat -> A r c = A c r.
Definition quadratic (n : nat) (A : mat) (x : vec) : R := rsum n (fun r => rsum n (fun c => x r * A r c * x c)).
Definition positive_definite (n : nat) (A : mat) : Prop := forall x, (exists i, (i < n)%nat /\ x i <> 0) -> 0 < quadratic n A x.
Definition negative_definite (n : nat) (A : mat) : Prop := forall x, (exists i, (i < n)%nat /\ x i <> 0) -> quadratic n A x < 0.
(** [x] solves [A x = b]. *)
Definition solves_dense (n : nat) (A : mat) (x b : vec) : Prop := forall r, (r < n)%nat -> rsum n (fun c => A r c * x c) = b r.
(** Equal on the first [n] rows and columns. *)
Definition same (n : nat) (A B : mat) : Prop := forall r c, (r < n)%nat -> (c < n)%nat -> A r c = B r c.

(** [A + sigma w w^T], and the same for a list of pairs. *)
Definition plus_outer (A : mat) (w : vec) (sigma : R) : mat := fun r c => A r c + sigma * (w r * w c).
Fixpoint plus_outers (A : mat) (l : list (vec * R)) : mat :=
  match l with
  | [] => A
  | (w, sigma) :: t => plus_outers (plus_outer A w sigma) t
  end.
(** Rank-one updates of an object, one after the other. *)
Fixpoint rankUpdates (n : nat) (o : rldlt_object) (l : list (vec * R)) : option rldlt_object :=
  match l with
  | [] => Some o
  | (w, sigma) :: t => match rankUpdate n (Some o) w sigma with Some o' => rankUpdates n o' t | None => None end
  end.

(** The transpositions of an object of order [n]; the stored pivots. *)
Definition well_formed (n : nat) (o : rldlt_object) : Prop := (length (r_trans o) <= n)%nat /\ forall p, In p (r_trans o) -> (p < n)%nat.
Definition pivots (n : nat) (P : R -> Prop) (o : rldlt_object) : Prop := forall i, (i < n)%nat -> P (r_matrix o i i).
