(** Shared vocabulary of the model: outcomes of C++ code and the container
    operations used by the sources.  No proofs in this file. *)
From Coq Require Import List Arith ZArith Bool.
Import ListNotations.

(** Outcome of running a piece of C++ code.
    [Throw]   : an exception escapes (e.g. [std::vector::at] out of range).
    [UB]      : an access the language leaves undefined (unchecked [operator[]]
                out of range, [std::stack::top] on an empty stack, ...).
    [Diverge] : the fuel given to a [while] loop ran out. *)
Inductive res (A : Type) : Type :=
| Ok (a : A)
| Throw
| UB
| Diverge.
Arguments Ok {A} a.
Arguments Throw {A}.
Arguments UB {A}.
Arguments Diverge {A}.

Definition bind {A B} (x : res A) (f : A -> res B) : res B :=
  match x with
  | Ok a => f a
  | Throw => Throw
  | UB => UB
  | Diverge => Diverge
  end.

Declare Scope res_scope.
Notation "x <- e ;; f" := (bind e (fun x => f))
  (at level 61, e at next level, right associativity) : res_scope.
Notation "' p <- e ;; f" := (bind e (fun x => let p := x in f))
  (at level 61, p pattern, e at next level, right associativity) : res_scope.
Open Scope res_scope.

(** [v.at(i)] for reading: throws [std::out_of_range]. *)
Definition at_ {A} (l : list A) (i : nat) : res A :=
  match nth_error l i with Some a => Ok a | None => Throw end.

(** [v[i]] for reading: undefined behaviour when out of range. *)
Definition idx {A} (l : list A) (i : nat) : res A :=
  match nth_error l i with Some a => Ok a | None => UB end.

Fixpoint upd {A} (l : list A) (i : nat) (a : A) : list A :=
  match l, i with
  | [], _ => []
  | _ :: t, 0 => a :: t
  | h :: t, S j => h :: upd t j a
  end.

(** [v.at(i) = a]. *)
Definition set_at {A} (l : list A) (i : nat) (a : A) : res (list A) :=
  if i <? length l then Ok (upd l i a) else Throw.

(** [v[i] = a]. *)
Definition set_idx {A} (l : list A) (i : nat) (a : A) : res (list A) :=
  if i <? length l then Ok (upd l i a) else UB.

(** A [for] loop over a range with a body that may fail. *)
Fixpoint foldM {S A} (f : S -> A -> res S) (s : S) (l : list A) : res S :=
  match l with
  | [] => Ok s
  | a :: t => s' <- f s a ;; foldM f s' t
  end.

Fixpoint mapM {A B} (f : A -> res B) (l : list A) : res (list B) :=
  match l with
  | [] => Ok []
  | a :: t => b <- f a ;; bs <- mapM f t ;; Ok (b :: bs)
  end.

(** [std::set_intersection] on sorted ranges of int (standard library
    algorithm; elements are copied from the first range). *)
Fixpoint set_intersection (l1 : list nat) : list nat -> list nat :=
  match l1 with
  | [] => fun _ => []
  | a :: t1 =>
      fix aux (l2 : list nat) : list nat :=
        match l2 with
        | [] => []
        | b :: t2 =>
            if a <? b then set_intersection t1 l2
            else if b <? a then aux t2
            else a :: set_intersection t1 t2
        end
  end.

(** [std::set_union] on sorted ranges of int. *)
Fixpoint set_union (l1 : list nat) : list nat -> list nat :=
  match l1 with
  | [] => fun l2 => l2
  | a :: t1 =>
      fix aux (l2 : list nat) : list nat :=
        match l2 with
        | [] => a :: t1
        | b :: t2 =>
            if b <? a then b :: aux t2
            else if a <? b then a :: set_union t1 l2
            else a :: set_union t1 t2
        end
  end.

(** [std::set_difference] on sorted ranges of int. *)
Fixpoint set_difference (l1 : list nat) : list nat -> list nat :=
  match l1 with
  | [] => fun _ => []
  | a :: t1 =>
      fix aux (l2 : list nat) : list nat :=
        match l2 with
        | [] => a :: t1
        | b :: t2 =>
            if a <? b then a :: set_difference t1 l2
            else if b <? a then aux t2
            else set_difference t1 t2
        end
  end.

(** [std::sort] on a vector of int.  Any correct sort gives the same list, so
    insertion sort stands for it. *)
Fixpoint insert_sorted (a : nat) (l : list nat) : list nat :=
  match l with
  | [] => [a]
  | b :: t => if a <=? b then a :: l else b :: insert_sorted a t
  end.

Definition sort (l : list nat) : list nat := fold_right insert_sorted [] l.

(** [std::accumulate(begin, end, 0)]. *)
Definition sum_list (l : list nat) : nat := fold_left Nat.add l 0.
