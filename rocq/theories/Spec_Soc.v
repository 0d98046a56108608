(** Vocabulary for second-order cones: the spin algebra of a symmetric bilinear
    form on the tails.  An element is a pair of a number and a vector; only the
    first [n] entries of the vector matter. *)
From Coq Require Import List Arith Reals.
From Verif Require Import DenseModel.
Open Scope R_scope.

Definition elem := (R * vec)%type.

(** Forms: the Euclidean one and the one of a matrix. *)
Definition euclid (n : nat) (u v : vec) : R := rsum n (fun i => u i * v i).
Definition weighted (n : nat) (Q : mat) (u v : vec) : R := rsum n (fun i => rsum n (fun j => u i * Q i j * v j)).
Definition form_of (n : nat) (Q : option mat) : vec -> vec -> R :=
  match Q with Some Q => weighted n Q | None => euclid n end.

(** Positive semidefinite matrices (and no matrix, which stands for the identity). *)
Definition semidefinite (n : nat) (Q : mat) : Prop :=
  (forall i j, (i < n)%nat -> (j < n)%nat -> Q i j = Q j i) /\ forall v, 0 <= weighted n Q v v.
Definition metric (n : nat) (Q : option mat) : Prop := match Q with Some Q => semidefinite n Q | None => True end.

(** Equality of the [n] entries of the tails. *)
Definition same (n : nat) (x y : elem) : Prop := fst x = fst y /\ forall i, (i < n)%nat -> snd x i = snd y i.

Definition jone : elem := (1, fun _ => 0).
Definition jscale (a : R) (x : elem) : elem := (a * fst x, fun i => a * snd x i).
Definition jadd (x y : elem) : elem := (fst x + fst y, fun i => snd x i + snd y i).
Definition jsub (x y : elem) : elem := (fst x - fst y, fun i => snd x i - snd y i).

Section Spin.
  Variable B : vec -> vec -> R.

  (** Equality as far as the form can see. *)
  Definition equiv (x y : elem) : Prop := fst x = fst y /\ forall v, B (snd x) v = B (snd y) v.

  Definition inner (x y : elem) : R := fst x * fst y + B (snd x) (snd y).
  Definition det (x : elem) : R := fst x * fst x - B (snd x) (snd x).
  Definition jmul (x y : elem) : elem := (inner x y, fun i => fst x * snd y i + fst y * snd x i).

  (** [Q(x) y = 2 x (x y) - (x x) y]. *)
  Definition quadrep (x y : elem) : elem := jsub (jscale 2 (jmul x (jmul x y))) (jmul (jmul x x) y).

  Definition interior (x : elem) : Prop := 0 < fst x /\ B (snd x) (snd x) < fst x * fst x.
  Definition cone (x : elem) : Prop := 0 <= fst x /\ B (snd x) (snd x) <= fst x * fst x.

  (** [a] is an eigenvalue of [x]. *)
  Definition eigenvalue (x : elem) (a : R) : Prop := det (jsub x (jscale a jone)) = 0.

  (** Powers and partial sums of the exponential series. *)
  Fixpoint power (x : elem) (k : nat) : elem := match k with O => jone | S k => jmul x (power x k) end.
  Fixpoint exp_sum (x : elem) (k : nat) : elem :=
    match k with
    | O => jone
    | S k' => jadd (exp_sum x k') (jscale (/ INR (fact k)) (power x k))
    end.
  (** [z] is the limit of the series, entry by entry. *)
  Definition is_exp (n : nat) (x z : elem) : Prop :=
    Un_cv (fun k => fst (exp_sum x k)) (fst z) /\ forall i, (i < n)%nat -> Un_cv (fun k => snd (exp_sum x k) i) (snd z i).
  (** The same up to the kernel of the form. *)
  Definition is_exp_equiv (x z : elem) : Prop :=
    Un_cv (fun k => fst (exp_sum x k)) (fst z) /\ forall v, Un_cv (fun k => B (snd (exp_sum x k)) v) (B (snd z) v).

  (** The slack [k c - A y] of a constraint with columns [A 0 .. A (m-1)]. *)
  Definition slack (m : nat) (A : nat -> elem) (c : elem) (k : R) (y : vec) : elem :=
    (k * fst c - rsum m (fun j => y j * fst (A j)), fun i => k * snd c i - rsum m (fun j => y j * snd (A j) i)).

  (** Square roots, as far as the form can see. *)
  Definition root_of (w s : elem) : Prop := cone s /\ equiv (jmul s s) w.

  (** The search direction [e - Q(s) (k c - A y)] at the square root [s] of the
      scaling point, for the slack [sl]. *)
  Definition direction (s sl : elem) : elem := jsub jone (quadrep s sl).
End Spin.
