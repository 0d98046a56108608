(** Model of the eigenvalue estimate for Hermitian hypercomplex matrices in
    conex/jordan_matrix_algebra.cc:238-276, the overload without a weight [W], which
    only tests call.

    Exact real arithmetic.  [None] stands for a computation that divides by zero or
    indexes an empty vector.  The assertion on the argument is not part of the
    shipped library.  No proofs in this file. *)
From Coq Require Import List Arith Reals.
From Verif Require Import Base DenseModel JordanModel.
Import ListNotations.
Open Scope R_scope.

(** Lines 248-250, 259-261: the component of the product [v^* (A v)] that is read;
    [n] is the number of components, [d] the number of rows. *)
Definition rayleigh (n d : nat) (A v : hyper) : R := Multiply n d (ConjugateTranspose v) (Multiply n d A v) 0%nat 0%nat 0%nat.

(** Lines 255-267: [todo] iterations are left, [v] is [V.at(j - 1)]. *)
Fixpoint symmetric_loop (n d : nat) (A : hyper) (todo : nat) (v wprev : hyper) : option (list R * list R) :=
  match todo with
  | O => Some ([], [])
  | S todo' =>
      let b2 := squaredNorm n d 1 wprev in
      if Req_EM_T b2 0 then None
      else
        let beta := sqrt b2 in
        let vprev := v in
        let v := ScalarMultiply wprev (1 / beta) in
        let alpha := rayleigh n d A v in
        let wprev := Add (Multiply n d A v) (ScalarMultiply v (- alpha)) in
        let wprev := Add wprev (ScalarMultiply vprev (- beta)) in
        match symmetric_loop n d A todo' v wprev with
        | Some (als, bes) => Some (alpha :: als, beta :: bes)
        | None => None
        end
  end.

(** [ApproximateEigenvalues], 238-276: diagonal and subdiagonal of the matrix whose
    eigenvalues are returned. *)
Definition HSymmetricEigenvalues (n d : nat) (A r0 : hyper) (num_iter : nat) : option (list R * list R) :=
  match num_iter with
  | O => None
  | S todo =>
      let n2 := squaredNorm n d 1 r0 in
      if Req_EM_T n2 0 then None
      else
        let v := ScalarMultiply r0 (1 / sqrt n2) in
        let alpha := rayleigh n d A v in
        let wprev := Add (Multiply n d A v) (ScalarMultiply v (- alpha)) in
        match symmetric_loop n d A todo v wprev with
        | Some (als, bes) => Some (alpha :: als, bes)
        | None => None
        end
  end.
