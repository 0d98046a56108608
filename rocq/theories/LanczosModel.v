(** Model of the eigenvalue estimates of conex: [AsymmetricLanczos] and
    [ApproximateEigenvalues] of conex/approximate_eigenvalues.cc, the version for
    hypercomplex matrices in conex/jordan_matrix_algebra.cc, and the values
    [norminfd], [lambda_min] and [lambda_max] which psd_constraint.cc and
    hermitian_psd.cc derive from them.

    Exact real arithmetic.  The value [None] stands for a computation that takes the
    square root of a negative number, divides by zero or allocates a vector of
    negative size.  The eigenvalues of the tridiagonal matrix, computed by Eigen's
    [SelfAdjointEigenSolver], enter by their mathematical contract (Section
    "Eigenvalues of the tridiagonal matrix").  The uncompressed variant
    [EigenvaluesOfJacobiMatrix] and the symmetric [ApproximateEigenvalues(A, r0, n)],
    which are only called from tests, are in EstimateModel.v.  No proofs in this file. *)
From Coq Require Import List Arith Reals.
From Verif Require Import Base DenseModel JordanModel.
Import ListNotations.
Open Scope R_scope.

(** ** The three-term recurrence

    Common to approximate_eigenvalues.cc:178-239 and
    jordan_matrix_algebra.cc:386-452.  An element of [E] is the pair of columns held
    in one of the matrices [V], [U], [Vprev]; [ip] is [inner_product], [op] the
    assignment of the two columns of [U] from [V]. *)
Section Recurrence.
  Variables (E : Type) (add : E -> E -> E) (scale : E -> R -> E) (ip : E -> E -> R) (op : E -> E).

  (** The loop over [j] (approximate_eigenvalues.cc:216-232,
      jordan_matrix_algebra.cc:428-445): [todo] iterations are left, [threshold] is
      the value below which the loop ends.  Returns the entries of [alpha] and
      [beta] that are written in the completed iterations. *)
  Fixpoint lanczos_loop (threshold : R) (todo : nat) (V U : E) : option (list R * list R) :=
    match todo with
    | O => Some ([], [])
    | S todo' =>
        let b2 := ip U U in
        if Rlt_dec b2 threshold then Some ([], [])
        else if Rle_dec b2 0 then None
        else
          let beta := sqrt b2 in
          let Vprev := V in
          let V := scale U (1 / beta) in
          let U := op V in
          let alpha := ip V U in
          let U := add (add U (scale V (- alpha))) (scale Vprev (- beta)) in
          match lanczos_loop threshold todo' V U with
          | Some (als, bes) => Some (alpha :: als, beta :: bes)
          | None => None
          end
    end.

  (** The first step and the loop; [V] holds the unscaled start columns.  The
      threshold may depend on [inner_product(U, U)] of the first [U]. *)
  Definition lanczos (threshold : R -> R) (num_iter : nat) (V : E) : option (list R * list R) :=
    match num_iter with
    | O => None
    | S todo =>
        let n2 := ip V V in
        if Rle_dec n2 0 then None
        else
          let V := scale V (1 / sqrt n2) in
          let U := op V in
          let scaling := ip U U in
          let alpha := ip V U in
          let U := add U (scale V (- alpha)) in
          match lanczos_loop (threshold scaling) todo V U with
          | Some (als, bes) => Some (alpha :: als, bes)
          | None => None
          end
    end.
End Recurrence.

(** ** approximate_eigenvalues.cc *)

(** A matrix with two columns of length [n]. *)
Definition columns : Type := vec * vec.
(** [inner_product], 173-176. *)
Definition inner_product (n : nat) (V U : columns) : R := rsum n (fun i => fst V i * snd U i).
(** [U.col(0) = WS * V.col(0)], [U.col(1) = WS.transpose() * V.col(1)], 210-211, 227-228. *)
Definition apply_both (n : nat) (WS : mat) (V : columns) : columns :=
  (fun i => rsum n (fun t => WS i t * fst V t), fun i => rsum n (fun t => WS t i * snd V t)).
Definition columns_add (V U : columns) : columns := (fun i => fst V i + fst U i, fun i => snd V i + snd U i).
Definition columns_scale (V : columns) (s : R) : columns := (fun i => fst V i * s, fun i => snd V i * s).

(** [AsymmetricLanczos], 178-239. *)
Definition AsymmetricLanczos (n : nat) (WS W : mat) (r : vec) (num_iter : nat) : option (list R * list R) :=
  lanczos columns columns_add columns_scale (inner_product n) (apply_both n WS)
    (fun _ => 1 / 10 ^ 6) num_iter (fun i => rsum n (fun t => W i t * r t), r).

(** [ApproximateEigenvalues], 241-256, with [compressed = true] and a square [WS]: the
    tridiagonal matrix whose eigenvalues are returned ([WS] itself if it has one
    entry). *)
Definition ApproximateEigenvalues (n : nat) (WS W : mat) (r : vec) (num_iter : nat) : option (list R * list R) :=
  if (n =? 1)%nat then Some ([WS 0%nat 0%nat], []) else AsymmetricLanczos n WS W r num_iter.

(** ** jordan_matrix_algebra.cc *)

(** A hypercomplex matrix with two columns: a pair of matrices with one column each. *)
Definition hcolumns : Type := hyper * hyper.
(** [inner_product<d>], 379-384; [n] is the number of components, [d] the number of rows. *)
Definition hinner_product (n d : nat) (V U : hcolumns) : R :=
  Multiply n d (ConjugateTranspose (fst V)) (snd U) 0%nat 0%nat 0%nat.
(** The assignments to [U.col(0)] and [U.col(1)], 421-422, 439-440. *)
Definition happly_both (n d : nat) (WS : hyper) (V : hcolumns) : hcolumns :=
  (Multiply n d WS (fst V), Multiply n d (ConjugateTranspose WS) (snd V)).
Definition hcolumns_add (V U : hcolumns) : hcolumns := (Add (fst V) (fst U), Add (snd V) (snd U)).
Definition hcolumns_scale (V : hcolumns) (s : R) : hcolumns := (ScalarMultiply (fst V) s, ScalarMultiply (snd V) s).

(** [MatrixAlgebra<d>::ApproximateEigenvalues], 386-452.  The start vector [r] is the
    first column of the argument. *)
Definition HApproximateEigenvalues (n d : nat) (WS W r : hyper) (num_iter : nat) : option (list R * list R) :=
  lanczos hcolumns hcolumns_add hcolumns_scale (hinner_product n d) (happly_both n d WS)
    (fun scaling => 1 / 10 ^ 5 * scaling) num_iter (Multiply n d W r, r).

(** ** Eigenvalues of the tridiagonal matrix

    Contract of [computeFromTridiagonal(alpha, beta).eigenvalues()] and of
    [minCoeff], [maxCoeff] of the result. *)
Definition tridiagonal (al be : list R) (i j : nat) : R :=
  if (i =? j)%nat then nth i al 0
  else if (j =? S i)%nat then nth i be 0
  else if (i =? S j)%nat then nth j be 0
  else 0.
Definition is_eigenvalue (al be : list R) (lambda : R) : Prop :=
  let m := length al in
  exists z : vec, (exists i, (i < m)%nat /\ z i <> 0) /\
    forall i, (i < m)%nat -> rsum m (fun j => tridiagonal al be i j * z j) = lambda * z i.
Definition min_eigenvalue (al be : list R) (lambda : R) : Prop :=
  is_eigenvalue al be lambda /\ forall mu, is_eigenvalue al be mu -> lambda <= mu.
Definition max_eigenvalue (al be : list R) (lambda : R) : Prop :=
  is_eigenvalue al be lambda /\ forall mu, is_eigenvalue al be mu -> mu <= lambda.

(** ** psd_constraint.cc *)

(** [v.maxCoeff(&index)]: the first position of a maximal entry among [0 .. n-1]. *)
Definition max_index (n : nat) (v : vec) : nat :=
  for_up n (fun best i => if Rlt_dec (v best) (v i) then i else best) 0%nat.

(** The absolute values and their maximum, psd_constraint.cc:71-77 and
    hermitian_psd.cc:60-65. *)
Definition norm_from (e_weight lo hi : R) : R :=
  let lambda_1 := Rabs (e_weight + lo) in
  let lambda_2 := Rabs (e_weight + hi) in
  if Rlt_dec lambda_1 lambda_2 then lambda_2 else lambda_1.

(** The result [t] reported as [norminfd] from a tridiagonal matrix. *)
Definition norm_estimate (e_weight : R) (T : option (list R * list R)) (t : R) : Prop :=
  exists al be lo hi, T = Some (al, be) /\ min_eigenvalue al be lo /\ max_eigenvalue al be hi /\
    t = norm_from e_weight lo hi.
(** The results reported as [lambda_min] and [lambda_max]. *)
Definition slack_estimate (T : option (list R * list R)) (lambda_min lambda_max : R) : Prop :=
  exists al be lo hi, T = Some (al, be) /\ min_eigenvalue al be lo /\ max_eigenvalue al be hi /\
    lambda_max = - lo /\ lambda_min = - hi.

(** [PrepareStep], psd_constraint.cc:45-84: the tridiagonal matrix behind [norminfd].
    [minus_s] and [WS] are the same memory ([temp_1]), so the start vector is a column
    of [WS]. *)
Definition PPrepareTridiagonal (n : nat) (W minus_s : mat) : option (list R * list R) :=
  let WS := PWeightedSlack n W minus_s in
  let index := max_index n (fun i => WS i i) in
  ApproximateEigenvalues n WS W (fun i => WS i index) (n / 2).
(** The value [norminfd]. *)
Definition PNormInf (n : nat) (W minus_s : mat) (opt : step_options) (t : R) : Prop :=
  norm_estimate (so_e_weight opt) (PPrepareTridiagonal n W minus_s) t.
(** [GetWeightedSlackEigenvalues], psd_constraint.cc:97-127: here [minus_s] is [temp_1]
    and [WS] is [temp_2], the start vector is a column of [minus_s]. *)
Definition PSlackTridiagonal (n : nat) (W minus_s : mat) : option (list R * list R) :=
  let WS := PWeightedSlack n W minus_s in
  let index := max_index n (fun i => WS i i) in
  ApproximateEigenvalues n WS W (fun i => minus_s i index) (n / 2).
Definition PSlackEigenvalues (n : nat) (W minus_s : mat) (lambda_min lambda_max : R) : Prop :=
  slack_estimate (PSlackTridiagonal n W minus_s) lambda_min lambda_max.

(** ** hermitian_psd.cc *)

(** [PrepareStep], 33-71, normal mode, with the random start vector [r] as argument;
    [n] is the number of components of the algebra. *)
Definition HNormInf (n : nat) (o : hermitian) (opt : step_options) (y : nat -> R) (r : hyper) (t : R) : Prop :=
  let d := h_rank o in
  let WS := Multiply n d (h_W o) (HNegativeSlack o (so_c_weight opt) y) in
  norm_estimate (so_e_weight opt) (HApproximateEigenvalues n d WS (h_W o) r (d / 2 + 1)) t.
(** [GetWeightedSlackEigenvalues], 73-91. *)
Definition HSlackEigenvalues (n : nat) (o : hermitian) (y : nat -> R) (c_weight : R) (r : hyper) (lambda_min lambda_max : R) : Prop :=
  let d := h_rank o in
  let WS := Multiply n d (h_W o) (HNegativeSlack o c_weight y) in
  slack_estimate (HApproximateEigenvalues n d WS (h_W o) r (d / 2 + 1)) lambda_min lambda_max.
(** [norminfd] of the octonion specialisation, 130-145. *)
Definition ONormInf (o : hermitian) (opt : step_options) (y : nat -> R) : R :=
  1 / 3 * (TraceInnerProduct 8 (h_rank o) (h_rank o) (h_W o) (HNegativeSlack o (so_c_weight opt) y) + INR (h_rank o)).
(** [lambda_min], [lambda_max] of the octonion specialisation, 147-168. *)
Definition OSlackEigenvalues (o : hermitian) (y : nat -> R) (c_weight : R) : R * R :=
  let d := h_rank o in
  let minus_s := HNegativeSlack o c_weight y in
  let normsqrd := TraceInnerProduct 8 d d (QuadraticRepresentation 8 d (h_W o) minus_s) minus_s in
  let lambda_max := Rabs normsqrd / (/ 10 ^ 15 + Rabs (TraceInnerProduct 8 d d (h_W o) minus_s)) in
  (lambda_max * (1 / 100), lambda_max).
