(** Statement vocabulary for property C80; independent of the model. *)
From Coq Require Import List Arith Bool.

(** Column [c] is reached from [M] and the rows with [b] by passing through rows. *)
Inductive reached (m n : nat) (A : nat -> nat -> bool) (b M : nat -> bool) : nat -> Prop :=
| Given c : c < n -> M c = true -> reached m n A b M c
| Forced r c : r < m -> c < n -> b r = true -> A r c = true -> reached m n A b M c
| Through r k c : reached m n A b M k -> r < m -> c < n -> A r k = true -> A r c = true -> reached m n A b M c.

(** Some row meets the column. *)
Definition touched (m : nat) (A : nat -> nat -> bool) (c : nat) : Prop := exists r, r < m /\ A r c = true.

(** [i] and [j] share a block. *)
Definition in_block (q : list (list nat)) (i j : nat) : Prop := exists x, In x q /\ In i x /\ In j x.

(** The pairs [P] can be kept together instead of all pairs: entry [(i, j)] of a matrix
    of order [d] is column [i + d * j]; entries of [c] and of rows with [b] are kept,
    and a row with one kept entry is kept as a whole. *)
Definition keeps (m d : nat) (A : nat -> nat -> bool) (b c : nat -> bool) (P : nat -> nat -> Prop) : Prop :=
  (forall i j, i < d -> j < d -> c (i + d * j) = true -> P i j) /\
  (forall r i j, r < m -> i < d -> j < d -> b r = true -> A r (i + d * j) = true -> P i j) /\
  (forall r i j k l, r < m -> i < d -> j < d -> k < d -> l < d -> P k l -> A r (k + d * l) = true -> A r (i + d * j) = true -> P i j).
