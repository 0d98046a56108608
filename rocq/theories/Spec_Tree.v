(** Specification vocabulary for rooted forests; independent of the model. *)
From Coq Require Import List Arith.
Import ListNotations.

(** [par]/[hei] describe a rooted forest on the nodes [0..n-1]: a root is its
    own parent and has height 0, any other node is one higher than its
    parent. *)
Definition forest (n : nat) (par hei : list nat) : Prop :=
  length par = n /\ length hei = n /\
  forall e, e < n ->
    nth e par 0 < n /\
    ((nth e par 0 = e /\ nth e hei 0 = 0) \/
     nth e hei 0 = S (nth (nth e par 0) hei 0)).

(** [ancestor par x a]: [a] is reached from [x] by following parents
    (every node is its own ancestor). *)
Inductive ancestor (par : list nat) : nat -> nat -> Prop :=
| anc_refl x : ancestor par x x
| anc_step x a : ancestor par (nth x par 0) a -> ancestor par x a.

(** Two nodes are in the same tree when they have a common ancestor. *)
Definition same_tree (par : list nat) (x y : nat) : Prop :=
  exists a, ancestor par x a /\ ancestor par y a.

(** Closest common ancestor. *)
Definition closest_common_ancestor (par : list nat) (x y z : nat) : Prop :=
  ancestor par x z /\ ancestor par y z /\
  forall a, ancestor par x a -> ancestor par y a -> ancestor par z a.
