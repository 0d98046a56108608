(** Model of the numeric part of conex/kkt_solver.cc (factorization, solve,
    right-hand sides) and of [AssembleSchurComplementResiduals]
    (conex/constraint_manager.h:107-127).  Exact real arithmetic.

    The QR mode ([mode_ == CONEX_QR_FACTORIZATION],
    kkt_solver.cc:174-178,195-198,215-217,227-231), which hands the dense matrix
    to Eigen's [ColPivHouseholderQR], is not in this file but in
    ConcreteBackend.v.  The other two mode values (conex/kkt_solver.h:10-14) run
    the same code, so the mode is not a parameter. *)
From Coq Require Import List Arith Reals Bool.
From Verif Require Import Base SupernodeModel TriWorkspaceModel AssemblerModel DenseModel BlockModel.
Import ListNotations.
Open Scope R_scope.

(** The members [use_cholesky_], [mat.workspace_] after factoring,
    [factorization] and [factorization_regularized_]
    (conex/kkt_solver.h:50-60). *)
Inductive factored :=
| FChol (m : rmem)
| FLdlt (m : rmem) (fs : list fact) (regularized : bool).

(** The [d_N x d_N] matrix of conex/kkt_solver.cc:265-269, read entry by entry. *)
Definition dense_kkt (o : TriWS) (d : MatrixData) (m : rmem) : res mat :=
  rows <- mapM (fun u => mapM (fun v => KKTMatrix R 0 o d m u v) (seq 0 (d_N d)))
               (seq 0 (d_N d)) ;;
  Ok (fun u v => nth v (nth u rows []) 0).

(** conex/kkt_solver.cc:180-186. *)
Definition use_cholesky (dual_vars : list (list nat)) : bool :=
  negb (existsb (fun di => (0 <? length di)%nat) dual_vars).

(** conex/kkt_solver.cc:172-199 with [iters = iterative_refinement_iterations_].
    [None]: returns false.  The second component is [kkt_matrix_]; it is left
    alone (here: zero) when no refinement is requested. *)
Definition Factor (o : TriWS) (d : MatrixData) (dual_vars : list (list nat))
  (iters : nat) (m : rmem) : res (option (factored * mat)) :=
  K <- (if (0 <? iters)%nat then dense_kkt o d m else Ok (fun _ _ => 0)) ;;
  ss <- seperator_diagonal o ;;
  if use_cholesky dual_vars then
    r <- BlockCholeskyInPlace o ss m ;;
    Ok (match r with None => None | Some m' => Some (FChol m', K) end)
  else
    '(m', fs, no_regularization) <- BlockLDLTInPlace o ss m ;;
    Ok (Some (FLdlt m' fs (negb no_regularization), K)).

(** [Pt * x] for a permutation with the given indices (Eigen: row [i] of the
    argument becomes row [indices(i)] of the result). *)
Definition scatter (indices : list nat) (x : vec) : vec :=
  fold_left (fun y p => vset y (snd p) (x (fst p)))
            (combine (seq 0 (length indices)) indices) (fun _ => 0).
(** [Pt^T * b]. *)
Definition gather (indices : list nat) (b : vec) : vec := fun i => b (nth i indices 0%nat).

(** conex/kkt_solver.cc:239-245 (and 252-258). *)
Definition solve_permuted (o : TriWS) (F : factored) (b : vec) : res vec :=
  match F with
  | FChol m => SolveInPlaceCholesky o m b
  | FLdlt m fs _ => SolveInPlaceLDLT o m fs b
  end.

(** conex/kkt_solver.cc:237-247 (and 251-259): permute, solve, permute back.  A
    permutation index outside [0, N) would make Eigen access the vectors out of
    bounds. *)
Definition apply_solver (o : TriWS) (d : MatrixData) (F : factored) (b : vec) : res vec :=
  indices <- Pt_indices d ;;
  if forallb (fun v => v <? d_N d)%nat indices then
    x <- solve_permuted o F (gather indices b) ;;
    Ok (scatter indices x)
  else UB.

(** conex/kkt_solver.cc:248-261: the refinement loop, for an arbitrary solver
    [S], order [n], saved matrix [K] and original right-hand side [b]. *)
Fixpoint refine (n : nat) (K : mat) (S : vec -> res vec) (b : vec) (iters : nat) (y : vec)
  : res vec :=
  match iters with
  | O => Ok y
  | Datatypes.S k =>
      let residual := fun i => b i - rsum n (fun j => K i j * y j) in
      t <- S residual ;;
      refine n K S b k (fun i => y i + t i)
  end.

(** conex/kkt_solver.cc:220-263.  [rows_b] is [b->rows()]; the vector is given as
    a function.  The right-hand side has a single column
    (conex/cone_program.cc:313,352,386,399). *)
Definition SolveInPlace (o : TriWS) (d : MatrixData) (FK : factored * mat) (iters : nat)
  (rows_b : nat) (b : vec) : res vec :=
  if (rows_b =? d_N d)%nat then
    y <- apply_solver o d (fst FK) b ;;
    refine (d_N d) (snd FK) (apply_solver o d (fst FK)) b iters y
  else Throw.

(** ** Right-hand sides *)

(** One constraint's [submatrix_data_] (conex/newton_step.h:51-110): [AW],
    [AQc] and the two scalars. *)
Record rhs := mkRhs { r_AW : list R; r_AQc : list R; r_wc : R; r_cQc : R }.

(** conex/kkt_solver.cc:154-159 and conex/constraint_manager.h:117-122: the
    inner loop over the variables of one constraint, for one of the vectors.
    Unchecked [operator()] on both sides. *)
Definition scatter_add (clique : list nat) (src dst : list R) : res (list R) :=
  foldM (fun dst p =>
           x <- idx src (fst p) ;;
           y <- idx dst (snd p) ;;
           set_idx dst (snd p) (y + x))
        dst (combine (seq 0 (length clique)) clique).

(** conex/constraint_manager.h:107-127; [n] is the order of the system vectors
    ([setZero] on line 110, whatever they contained).  Simplification: the two
    vectors are distinct storage (newton_step.h:75-76), so their loops are run
    one after the other. *)
Definition AssembleSchurComplementResiduals (n : nat) (cliques : list (list nat))
  (eqs : list rhs) : res rhs :=
  foldM (fun s p =>
           let '(i, ci) := p in
           c <- at_ cliques i ;;
           aw <- scatter_add c (r_AW ci) (r_AW s) ;;
           aq <- scatter_add c (r_AQc ci) (r_AQc s) ;;
           Ok (mkRhs aw aq (r_wc s + r_wc ci) (r_cQc s + r_cQc ci)))
        (mkRhs (repeat 0 n) (repeat 0 n) 0 0)
        (combine (seq 0 (length eqs)) eqs).

(** conex/kkt_solver.cc:133-162 (three-argument [Assemble]), the part after the
    block updates.  [rows_AW], [rows_AQc] are the sizes of the output vectors;
    the scalar [inner_product_of_c_and_Qc] is not an output. *)
Definition AssembleRhs (d : MatrixData) (cliques : list (list nat)) (eqs : list rhs)
  (rows_AW rows_AQc : nat) : res (list R * list R * R) :=
  if (negb (rows_AW =? d_N d) || negb (rows_AQc =? d_N d))%nat%bool then Throw
  else
    foldM (fun s e =>
             let '(aw, aq, ip) := s in
             i <- at_ (d_order d) e ;;
             ci <- at_ eqs i ;;
             c <- at_ cliques i ;;
             aw' <- scatter_add c (r_AW ci) aw ;;
             aq' <- scatter_add c (r_AQc ci) aq ;;
             Ok (aw', aq', ip + r_wc ci))
          (repeat 0 rows_AW, repeat 0 rows_AQc, 0)
          (rev (seq 0 (length cliques))).
