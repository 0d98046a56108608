(** Model of conex/tree_utils.{h,cc}. *)
From Coq Require Import List Arith.
From Verif Require Import Base.
Import ListNotations.

(** conex/tree_utils.h:13-18, [struct RootedTree]. *)
Record RootedTree := mkTree { parent : list nat; height : list nat }.

(** conex/tree_utils.h:14-15: both vectors are value-initialised to zero. *)
Definition RootedTree_init (n : nat) : RootedTree :=
  mkTree (repeat 0 n) (repeat 0 n).

(** conex/tree_utils.cc:11-25, the [while (x != y)] loop of [PathInTree].
    [depth[x]] is unchecked (UB when out of range), [tree.at] throws. *)
Fixpoint path_loop (fuel : nat) (x y : nat) (tree depth path : list nat)
  : res (list nat) :=
  if x =? y then Ok (path ++ [x])
  else match fuel with
       | 0 => Diverge
       | S fuel' =>
           dx <- idx depth x ;;
           dy <- idx depth y ;;
           if dx <? dy then
             py <- at_ tree y ;;
             path_loop fuel' x py tree depth (path ++ [y])
           else
             px <- at_ tree x ;;
             path_loop fuel' px y tree depth (path ++ [x])
       end.

(** conex/tree_utils.cc:11-25.  Simplification: the unbounded loop is given
    the fuel [depth[x] + depth[y]]; on a rooted forest this is shown to be
    enough, on malformed arrays the model may answer [Diverge] where the code
    would go on. *)
Definition PathInTree (x y : nat) (tree depth : list nat) : res (list nat) :=
  path_loop (nth x depth 0 + nth y depth 0) x y tree depth [].
