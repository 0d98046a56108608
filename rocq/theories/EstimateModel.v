(** Model of the eigenvalue estimates of conex/approximate_eigenvalues.cc that no
    constraint calls: the symmetric recurrence and the uncompressed variant, which
    works with polynomials in the monomial basis.

    Exact real arithmetic; [None] stands for a computation that takes the square root
    of a negative number, divides by zero, or indexes or allocates a vector of size
    zero or less.  No proofs in this file. *)
From Coq Require Import List Arith Reals.
From Verif Require Import Base DenseModel LanczosModel.
Import ListNotations.
Open Scope R_scope.

(** [ApproximateEigenvalues(A, r0, num_iter)], 147-171: the diagonal and the
    subdiagonal of the tridiagonal matrix whose eigenvalues are returned.  The
    recurrence is that of LanczosModel.v on single columns with the dot product; a
    residual of norm zero is divided by (162), so no threshold ends the loop. *)
Definition dot (n : nat) (v u : vec) : R := rsum n (fun i => v i * u i).
Definition times (n : nat) (A : mat) (v : vec) : vec := fun i => rsum n (fun t => A i t * v t).
Definition SymmetricLanczos (n : nat) (A : mat) (r0 : vec) (num_iter : nat) : option (list R * list R) :=
  lanczos vec (fun v u i => v i + u i) (fun v s i => v i * s) (dot n) (times n A) (fun _ => 0) num_iter r0.

(** [JacobiSolver], 37-126.  [d] is the number of rows of [A], [n] the number of
    iterations; a polynomial is the function of its coefficients. *)
Section Jacobi.
  Variables (d : nat) (A W : mat) (r0 : vec).

  (** [powers_of_A_], 41-44. *)
  Fixpoint power (k : nat) : mat :=
    match k with
    | O => fun i j => if (i =? j)%nat then 1 else 0
    | S k' => fun i j => rsum d (fun t => A i t * power k' t j)
    end.
  (** [EvalPoly], 69-76; [m] is the number of coefficients. *)
  Definition EvalPoly (m : nat) (p : vec) : mat := fun i j => rsum m (fun k => p k * power k i j).
  (** [PolynomialInnerProduct], 48-61; [m] and [m'] are the numbers of coefficients. *)
  Definition PolynomialInnerProduct (m : nat) (p : vec) (m' : nat) (q : vec) : R :=
    let P := EvalPoly m p in
    let Q := EvalPoly m' q in
    let QW := fun i j => rsum d (fun t => Q i t * W t j) in
    dot d (fun i => rsum d (fun t => P t i * r0 t)) (fun i => rsum d (fun t => QW i t * r0 t)).

  (** [Avj(0) = 0; Avj.tail(..) = v.head(..)], 98-99 and 111-112. *)
  Definition shift (v : vec) : vec := fun i => match i with O => 0 | S i' => v i' end.

  (** The loop over [j], 95-108: [todo] iterations are left.  Returns the entries of
      [alpha_v] and [beta_v] and the last polynomial. *)
  Fixpoint jacobi_loop (n todo : nat) (vprev v : vec) (beta : R) : option (list R * list R * vec) :=
    match todo with
    | O => Some ([], [], v)
    | S todo' =>
        let Avj := shift v in
        let alpha := PolynomialInnerProduct n Avj n v in
        let vhat := fun i => Avj i - alpha * v i - beta * vprev i in
        let b2 := PolynomialInnerProduct n vhat n vhat in
        if Rle_dec b2 0 then None
        else
          let beta := sqrt b2 in
          match jacobi_loop n todo' v (fun i => vhat i / beta) beta with
          | Some (als, bes, last) => Some (alpha :: als, beta :: bes, last)
          | None => None
          end
    end.

  (** [Eigenvalues], 78-120: the matrix handed to [computeFromTridiagonal].  The last
      of the [n] entries of [beta_v] is not initialised; Eigen does not read it. *)
  Definition Eigenvalues (n : nat) : option (list R * list R) :=
    match n with
    | O => None
    | S todo =>
        let one := fun i : nat => if (i =? 0)%nat then 1 else 0 in
        let b2 := PolynomialInnerProduct n one n one in
        if Rle_dec b2 0 then None
        else
          let beta := sqrt b2 in
          match jacobi_loop n todo (fun _ => 0) (fun i => one i / beta) beta with
          | Some (als, bes, last) => Some (als ++ [PolynomialInnerProduct (S n) (shift last) n last], bes)
          | None => None
          end
    end.
End Jacobi.

(** [ApproximateEigenvalues], 241-256, with [compressed = false] and a square [WS]. *)
Definition UncompressedEigenvalues (n : nat) (WS W : mat) (r : vec) (num_iter : nat) : option (list R * list R) :=
  if (n =? 1)%nat then Some ([WS 0%nat 0%nat], []) else Eigenvalues n WS W r num_iter.
