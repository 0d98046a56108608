(** Specification vocabulary for hypercomplex matrices (properties C33, C43, C47):
    the Cayley-Dickson algebras over the reals, matrices over them, Hermitian and
    positive definite matrices.  Independent of the model. *)
From Coq Require Import List Arith Reals.
Open Scope R_scope.

(** An algebra with conjugation and real part over the reals. *)
Record star := mkStar {
  el : Type; s0 : el; s1 : el;
  sadd : el -> el -> el; sscal : R -> el -> el; smul : el -> el -> el; sconj : el -> el;
  sre : el -> R }.
Arguments s0 {s}. Arguments s1 {s}. Arguments sadd {s}. Arguments sscal {s}. Arguments smul {s}.
Arguments sconj {s}. Arguments sre {s}.

Definition reals : star :=
  mkStar R 0 1 Rplus Rmult Rmult (fun x => x) (fun x => x).

(** [(a, b)(c, d) = (a c - d b*, a* d + c b)]. *)
Definition double (A : star) : star :=
  mkStar (el A * el A) (s0, s0) (s1, s0)
    (fun x y => (sadd (fst x) (fst y), sadd (snd x) (snd y)))
    (fun r x => (sscal r (fst x), sscal r (snd x)))
    (fun x y => (sadd (smul (fst x) (fst y)) (sscal (-1) (smul (snd y) (sconj (snd x)))),
                 sadd (smul (sconj (fst x)) (snd y)) (smul (fst y) (snd x))))
    (fun x => (sconj (fst x), sscal (-1) (snd x)))
    (fun x => sre (fst x)).

(** Reals, complex numbers, quaternions, octonions. *)
Fixpoint cd (k : nat) : star := match k with O => reals | S k' => double (cd k') end.

(** The element with given coordinates. *)
Fixpoint read (k : nat) (f : nat -> R) : el (cd k) :=
  match k return el (cd k) with
  | O => f 0%nat
  | S k' => (read k' f, read k' (fun i => f (2 ^ k' + i)%nat))
  end.

Definition associative (A : star) : Prop := forall x y z : el A, smul (smul x y) z = smul x (smul y z).

(** Matrices over an algebra. *)
Section Matrices.
  Variable A : star.
  Definition amat := nat -> nat -> el A.
  Fixpoint ssum (d : nat) (f : nat -> el A) : el A :=
    match d with O => s0 | S d' => sadd (ssum d' f) (f d') end.
  Definition mmul (d : nat) (X Y : amat) : amat := fun r c => ssum d (fun t => smul (X r t) (Y t c)).
  Definition madd (X Y : amat) : amat := fun r c => sadd (X r c) (Y r c).
  Definition mscal (s : R) (X : amat) : amat := fun r c => sscal s (X r c).
  Definition mconj (X : amat) : amat := fun r c => sconj (X c r).
  Definition mid : amat := fun r c => if (r =? c)%nat then s1 else s0.
  Definition same_matrix (d : nat) (X Y : amat) : Prop := forall r c, (r < d)%nat -> (c < d)%nat -> X r c = Y r c.
  Definition hermitian_matrix (d : nat) (X : amat) : Prop := same_matrix d (mconj X) X.
  (** Real part of [z^* X z]. *)
  Definition form (d : nat) (X : amat) (z : nat -> el A) : R :=
    sre (ssum d (fun r => ssum d (fun c => smul (sconj (z r)) (smul (X r c) (z c))))).
  Definition posdef (d : nat) (X : amat) : Prop :=
    hermitian_matrix d X /\ forall z, (exists r, (r < d)%nat /\ z r <> s0) -> 0 < form d X z.
  Definition possemidef (d : nat) (X : amat) : Prop := hermitian_matrix d X /\ forall z, 0 <= form d X z.
  (** Real part of the trace of [X^* Y]. *)
  Definition inner (d : nat) (X Y : amat) : R :=
    sre (ssum d (fun r => ssum d (fun c => smul (sconj (X r c)) (Y r c)))).
End Matrices.
Arguments mmul {A}. Arguments madd {A}. Arguments mscal {A}. Arguments mconj {A}. Arguments mid {A}.
Arguments ssum {A}. Arguments same_matrix {A}. Arguments hermitian_matrix {A}. Arguments form {A}.
Arguments inner {A}.
Arguments posdef {A}. Arguments possemidef {A}.

(** The matrix with components [X 0], [X 1], ... *)
Definition matrix_of (k : nat) (X : nat -> nat -> nat -> R) : amat (cd k) :=
  fun r c => read k (fun i => X i r c).
