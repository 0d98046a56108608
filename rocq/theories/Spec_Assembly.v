(** Specification of "sum of scattered symmetric blocks"; independent of the
    model. Generic in the scalars. *)
From Coq Require Import List Arith Bool.
Import ListNotations.

Section Sum.
  Variable F : Type.
  Variable F0 : F.
  Variable Fadd : F -> F -> F.

  Definition msum {A} (f : A -> F) (l : list A) : F :=
    fold_right (fun a s => Fadd (f a) s) F0 l.

  (** Entry [(u,v)] of the matrix obtained by placing the symmetric completion
      of the lower triangle of [G] in the rows and columns named by [c]. *)
  Definition scattered (c : list nat) (G : nat -> nat -> F) (u v : nat) : F :=
    msum (fun a => msum (fun b =>
            if (nth a c 0 =? u) && (nth b c 0 =? v)
            then G (Nat.max a b) (Nat.min a b) else F0)
          (seq 0 (length c))) (seq 0 (length c)).

  (** Entry [(u,v)] of the sum over all constraints. *)
  Definition sum_of_blocks (cliques : list (list nat)) (G : nat -> nat -> nat -> F)
    (u v : nat) : F :=
    msum (fun j => scattered (nth j cliques []) (G j) u v) (seq 0 (length cliques)).

  (** Scalar laws used: a commutative monoid. *)
  Record comm_monoid : Prop := {
    cm_assoc : forall a b c, Fadd a (Fadd b c) = Fadd (Fadd a b) c;
    cm_comm : forall a b, Fadd a b = Fadd b a;
    cm_zero : forall a, Fadd F0 a = a
  }.
End Sum.

(** Admissible input of the KKT solver: duplicate-free variable lists, one list
    of multipliers per constraint which is the tail of its variable list, and a
    non-empty first constraint. *)
Record admissible (cliques dual_vars : list (list nat)) : Prop := {
  ad_nodup : forall c, In c cliques -> NoDup c;
  ad_first : nth 0 cliques [] <> [];
  ad_len : length dual_vars = length cliques;
  ad_dual : forall e, e < length cliques ->
              exists pre, nth e cliques [] = pre ++ nth e dual_vars []
}.

(** Variable [v] occurs in some constraint. *)
Definition covered (cliques : list (list nat)) (v : nat) : Prop :=
  exists c, In c cliques /\ In v c.
