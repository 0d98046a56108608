(** Specification vocabulary for clique trees and fill-in patterns; independent
    of the model's helpers. *)
From Coq Require Import List Arith Sorting.Sorted Permutation.
From Verif Require Import Spec_Tree.
Import ListNotations.

(** Variable [v] occurs in clique number [e]. *)
Definition occurs (cliques : list (list nat)) (v e : nat) : Prop :=
  In v (nth e cliques []).

(** [order] eliminates every clique exactly once, and each clique before its
    parent. *)
Definition children_first (par order : list nat) : Prop :=
  forall l1 e l2, order = l1 ++ e :: l2 -> nth e par 0 = e \/ In (nth e par 0) l2.

(** [a] is eliminated strictly before [b]. *)
Definition before (order : list nat) (a b : nat) : Prop :=
  exists l1 l2 l3, order = l1 ++ a :: l2 ++ b :: l3.

(** A clique tree for [cliques]: [order] is a permutation of the cliques,
    [par]/[hei] a rooted forest with children eliminated first, and cliques
    sharing a variable are in the same tree. *)
Definition clique_tree (cliques : list (list nat)) (order par hei : list nat) : Prop :=
  Permutation order (seq 0 (length cliques)) /\
  forest (length cliques) par hei /\
  children_first par order /\
  (forall v a b, a < length cliques -> b < length cliques ->
     occurs cliques v a -> occurs cliques v b -> same_tree par a b).

(** The result of a symbolic factorization. [sn]/[sep] are indexed by clique. *)
Record symbolic_ok (cliques : list (list nat)) (order : list nat)
  (sn sep : list (list nat)) : Prop := {
  so_order : Permutation order (seq 0 (length cliques));
  so_len_sn : length sn = length cliques;
  so_len_sep : length sep = length cliques;
  (* supernodes and separators are sorted, duplicate free *)
  so_sorted_sn : forall e, StronglySorted lt (nth e sn []);
  so_sorted_sep : forall e, StronglySorted lt (nth e sep []);
  (* every variable that occurs is eliminated by exactly one clique *)
  so_cover : forall v, (exists e, e < length cliques /\ occurs cliques v e) <->
                       (exists e, e < length cliques /\ In v (nth e sn []));
  so_unique : forall v e e', In v (nth e sn []) -> In v (nth e' sn []) -> e = e';
  (* each clique is covered by its supernode and separator *)
  so_clique : forall v e, occurs cliques v e ->
                In v (nth e sn []) \/ In v (nth e sep []);
  (* a separator variable is eliminated strictly later *)
  so_later : forall v e, e < length cliques -> In v (nth e sep []) ->
               exists f, f < length cliques /\ In v (nth f sn []) /\ before order e f;
  (* closure: the separator variables that are eliminated at f or later are in
     the supernode or separator of f, whenever f eliminates one of them *)
  so_closed : forall e f g u v, e < length cliques ->
               In u (nth e sep []) -> In v (nth e sep []) ->
               In u (nth f sn []) -> In v (nth g sn []) ->
               f = g \/ before order f g -> In v (nth f sn []) \/ In v (nth f sep [])
}.
