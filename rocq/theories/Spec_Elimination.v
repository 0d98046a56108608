(** Specification vocabulary for elimination orderings (property C46).  A graph on
    [0 .. n-1] is a function of two vertices; independent of the model. *)
From Coq Require Import List Arith ZArith Permutation.
Import ListNotations.

Definition adjacent (G : nat -> nat -> Z) (i j : nat) : Prop := i <> j /\ G i j <> 0%Z.
Definition undirected (G : nat -> nat -> Z) (n : nat) : Prop :=
  forall i j, i < n -> j < n -> G i j <> 0%Z -> G j i <> 0%Z.
Definition zero_one (G : nat -> nat -> Z) (n : nat) : Prop :=
  forall i j, i < n -> j < n -> G i j = 0%Z \/ G i j = 1%Z.

(** The later neighbours of every vertex are pairwise adjacent. *)
Definition perfect_order (G : nat -> nat -> Z) (order : list nat) : Prop :=
  forall a b c, a < b -> b < c -> c < length order ->
    adjacent G (nth a order 0) (nth b order 0) -> adjacent G (nth a order 0) (nth c order 0) ->
    adjacent G (nth b order 0) (nth c order 0).

Definition vertex_order (n : nat) (order : list nat) : Prop := Permutation order (seq 0 n).

(** A simple cycle on [k] vertices. *)
Definition cycle (G : nat -> nat -> Z) (n k : nat) (c : nat -> nat) : Prop :=
  (forall i, i < k -> c i < n) /\
  (forall i j, i < j -> j < k -> c i <> c j) /\
  (forall i, i < k -> adjacent G (c i) (c ((i + 1) mod k))).

(** Every cycle on four or more vertices has a chord. *)
Definition chordal (G : nat -> nat -> Z) (n : nat) : Prop :=
  forall k c, 4 <= k -> cycle G n k c ->
    exists i j, i < j /\ j < k /\ j <> i + 1 /\ ~ (i = 0 /\ j = k - 1) /\ adjacent G (c i) (c j).

(** Row sum. *)
Definition row_sum (G : nat -> nat -> Z) (n i : nat) : Z := fold_right Z.add 0%Z (map (G i) (seq 0 n)).
