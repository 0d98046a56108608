(** Model of the helpers of conex/jordan_matrix_algebra.cc that the constraints do not
    call: comparison, Gram-Schmidt orthogonalization, eigenvalues through the minimal
    polynomial.

    Representation as in JordanModel.v: [n] components, dimensions explicit, exact real
    arithmetic.  No proofs in this file. *)
From Coq Require Import List Arith Reals Bool.
From Verif Require Import Base DenseModel JordanModel.
Import ListNotations.
Open Scope R_scope.

(** [norm()] of a real [d x d] matrix. *)
Definition frobenius (d : nat) (A : mat) : R := sqrt (rsum d (fun c => rsum d (fun r => A r c * A r c))).

(** [IsEqual], 179-187, for square matrices. *)
Definition IsEqual (n d : nat) (x y : hyper) : bool :=
  forallb (fun i => if Rlt_dec (/ 10 ^ 8) (frobenius d (fun r c => x i r c - y i r c)) then false else true) (seq 0 n).
(** [IsHermitian], 189-201. *)
Definition IsHermitian (n d : nat) (w : hyper) : bool :=
  if Rlt_dec (/ 10 ^ 12) (frobenius d (fun r c => w 0%nat r c - w 0%nat c r)) then false
  else forallb (fun i => if Rlt_dec (/ 10 ^ 12) (frobenius d (fun r c => w i r c + w i c r)) then false else true) (seq 1 (n - 1)).

(** [Q.col(j)] as a matrix with one column, and its assignment. *)
Definition column (Q : hyper) (j : nat) : hyper := fun i r _ => Q i r j.
Definition set_column (Q : hyper) (j : nat) (v : hyper) : hyper :=
  fun i r c => if (c =? j)%nat then v i r 0%nat else Q i r c.

(** [Orthogonalize], 230-234: the body of the loop over [j]. *)
Definition orthogonalize_column (n rows i : nat) (Q : hyper) (j : nat) : hyper :=
  let ip := Multiply n rows (ConjugateTranspose (column Q i)) (column Q j) in
  let ip := ScalarMultiply ip (-1) in
  set_column Q j (Add (column Q j) (Multiply n 1 (column Q i) ip)).
(** 227-235: the body of the loop over [i]; [None] if it divides by zero. *)
Definition orthogonalize_step (n rows cols : nat) (Q : hyper) (i : nat) : option hyper :=
  let norm := sqrt (TraceInnerProduct n rows 1 (column Q i) (column Q i)) in
  if Req_EM_T norm 0 then None
  else
    let Q := set_column Q i (ScalarMultiply (column Q i) (1 / norm)) in
    Some (fold_left (orthogonalize_column n rows i) (seq (S i) (cols - S i)) Q).
(** [Orthogonalize], 217-238, of a matrix with [rows] rows and [cols] columns. *)
Definition Orthogonalize (n rows cols : nat) (Qn : hyper) : res (option hyper) :=
  if (8 <=? n)%nat then Throw
  else Ok (for_opt (orthogonalize_step n rows cols) (seq 0 cols) Qn).

(** The values of [xpow] in [MinimalPolynomial], 43-47. *)
Fixpoint jordan_power (n d : nat) (x : hyper) (k : nat) : hyper :=
  match k with
  | O => Identity
  | S k' => JordanMultiply n d (jordan_power n d x k') x
  end.
(** [MinimalPolynomial], 36-49.  [colPivHouseholderQr().solve] by its contract: the
    result is a least-squares solution, that is the residual is orthogonal to every
    column of [M].  [Vect] lists all entries of all components. *)
Definition MinimalPolynomial (n d : nat) (x : hyper) (c : vec) : Prop :=
  let residual : hyper := fun i r s => rsum d (fun k => jordan_power n d x k i r s * c k) + jordan_power n d x d i r s in
  forall k, (k < d)%nat -> TraceInnerProduct n d d (jordan_power n d x k) residual = 0.
(** [Roots], 51-58: the companion matrix. *)
Definition companion (m : nat) (x : vec) : mat := fun i j =>
  if (i =? m - 1)%nat then - x j else if (j =? S i)%nat then 1 else 0.
(** [eig(c).eigenvalues], 17-23: the real parts [a] of the eigenvalues [a + b i] of a
    real matrix, by definition; [u + v i] is an eigenvector. *)
Definition eig_value (m : nat) (C : mat) (a b : R) : Prop :=
  exists u v : vec, (exists i, (i < m)%nat /\ (u i <> 0 \/ v i <> 0)) /\
    forall i, (i < m)%nat ->
      rsum m (fun j => C i j * u j) = a * u i - b * v i /\ rsum m (fun j => C i j * v j) = b * u i + a * v i.
(** [Eigenvalues], 212-216: [a] is one of the returned values, [c] the coefficients
    found by [MinimalPolynomial]. *)
Definition Eigenvalues (n d : nat) (Q : hyper) (c : vec) (a : R) : Prop :=
  MinimalPolynomial n d Q c /\ exists b, eig_value d (companion d c) a b.
