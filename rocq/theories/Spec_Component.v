(** Statement vocabulary for components of patterns (property C79); independent of
    the model. *)
From Coq Require Import List Arith Bool.
Import ListNotations.

(** Joined by a path of entries of the pattern among the first [N] indices. *)
Inductive joined (N : nat) (A : nat -> nat -> bool) (u : nat) : nat -> Prop :=
| Here : u < N -> joined N A u u
| Step v w : joined N A u v -> w < N -> A v w = true \/ A w v = true -> joined N A u w.

(** The sizes do not decrease. *)
Fixpoint ascending (l : list (list nat)) : Prop :=
  match l with
  | x :: (y :: _) as t => length x <= length y /\ ascending t
  | _ => True
  end.
