(** The operations behind the solve loop of SolveModel.v: the dispatch of
    conex/constraint.h:50-182 to the constraint classes, and the KKT solver of
    conex/kkt_solver.cc.

    Modelled classes: [CLinear], [CEq], [CQuad], [CSoc], and [CHerm] over the reals,
    the complex numbers and the quaternions.  An operation on another class, or on a
    constraint that has no workspace because it was added after the last
    initialisation, is [UB].  No proofs in this file. *)
From Coq Require Import List Arith ZArith Reals Bool.
From Verif Require Import SocModel.
From Verif Require LanczosModel.
From Verif Require Import Base LayoutModel SupernodeModel TriWorkspaceModel AssemblerModel DenseModel BlockModel KktModel
  ProgramModel ApiModel DivergenceModel SolveModel LinearModel.
Import ListNotations.
Open Scope R_scope.

(** The memory of one constraint: the workspace of a linear constraint, the
    member [lambda_] of an equality constraint (conex/equality_constraint.h:28),
    nothing for a quadratic cost (conex/quadratic_cost.cc:7-16), and for a
    second-order cone the order, the scaling point and the search direction of
    its workspace (conex/workspace_soc.h:7-48: [n_], [W0]/[W1], [d0]/[temp1_1];
    [None]: never written).

    For a Hermitian constraint (conex/hermitian_psd.h:86-95): the number of
    components, the order, the members [W] and [WS], and whether [workspace_.W] is
    mapped to the real part of [W] (conex/hermitian_psd.cc:24-29, 47-52).  [WS] is
    [None] unless it was computed from the present [W]; the code keeps a stale [WS]
    after [SetIdentity], but computes it anew before using it.  The code also keeps
    [W] when workspaces are mapped anew; [SetIdentity] overwrites it, except when a
    program that is not initialised is solved in warm start mode ([UB] here). *)
Record soc_ws := mkSocWs { sw_n : nat; sw_W : option spin; sw_d : option spin }.
Record herm_ws := mkHermWs {
  hw_h : nat; hw_n : nat; hw_W : option JordanModel.hyper; hw_WS : option JordanModel.hyper; hw_map : bool }.
Inductive cstate :=
| SLinear (w : linear_ws)
| SEq (lambda : list R)
| SQuad
| SSoc (w : soc_ws)
| SHerm (w : herm_ws)
| SOther.

(** The three values of [mode_] (conex/kkt_solver.h:10-14): 0 and 1 run the same
    code, with [iterative_refinement_iterations_] refinement steps; in mode 2 the
    dense matrix is factored by [ColPivHouseholderQR]; [solve n K b] stands for the
    vector which [qr_decomp_.solve(b)] returns for the [n x n] matrix [K]
    (conex/kkt_solver.cc:196, 216 and 228). *)
Inductive solver_mode := Refine (iters : nat) | Qr (solve : nat -> mat -> vec -> vec).
Coercion Refine : nat >-> solver_mode.

(** What [Factor] leaves behind: a block factorization with [kkt_matrix_], or
    [kkt_matrix_] with its QR decomposition, which here is its solve function. *)
Inductive factorization := Blocks (FK : factored * mat) | Dense (K : mat) (solve : vec -> vec).

(** The constraints (in the order of [eqs]), the factor storage, the
    factorization, the assembled vectors [sys], and how many random vectors
    were drawn (jordan_matrix_algebra.cc:80-87, called from hermitian_psd.cc:55
    and 81).  The factorization is absent
    before the first successful [Factor] and after a failed one (the numbers a
    failed factorization leaves behind are not modelled; solving with them is
    [UB]). *)
Record cst := mkCst {
  ct_cons : list cstate;
  ct_mem : rmem;
  ct_fact : option factorization;
  ct_sys : rhs;
  ct_draws : nat
}.

(** What the model leaves open.  [env_not_finite p st]: the number standing for a
    division by zero in [ComputeMuFromDivergence].  [env_estimate k h n WS W]: the
    least and greatest eigenvalue of the tridiagonal matrix which
    [ApproximateEigenvalues] computes from the [k]-th random vector for matrices of
    order [n] with [h] components ([None]: the computation breaks down and gives
    NaN); see LanczosModel.v for the computation.  [env_qr]: the solutions in QR
    mode, see [solver_mode]. *)
Record environment := mkEnv {
  env_not_finite : program -> cst -> R;
  env_estimate : nat -> nat -> nat -> JordanModel.hyper -> JordanModel.hyper -> option (R * R);
  env_qr : nat -> mat -> vec -> vec
}.

Definition set_con (st : cst) (i : nat) (s : cstate) : cst :=
  mkCst (upd (ct_cons st) i s) (ct_mem st) (ct_fact st) (ct_sys st) (ct_draws st).
Definition draw (st : cst) : cst :=
  mkCst (ct_cons st) (ct_mem st) (ct_fact st) (ct_sys st) (S (ct_draws st)).

(** Workspace of a new constraint: mapped memory with indeterminate contents
    (conex/linear_workspace.h:21-31); [lambda_] is zero
    (conex/equality_constraint.cc:10). *)
Definition fresh (c : cdata) : cstate :=
  match c with
  | CLinear _ _ _ => SLinear (mkLin None None None)
  | CEq _ b => SEq (map (fun _ => 0) b)
  | CQuad _ => SQuad
  | CSoc n _ _ => SSoc (mkSocWs n None None)
  | CHerm h n _ _ => SHerm (mkHermWs h n None None false)
  | _ => SOther
  end.

(** conex/cone_program.h:174-189 and conex/cone_program.cc:96-110: all workspaces
    are mapped anew, the solver is built anew.  The factor storage is copied from
    memory whose contents do not matter (C08 holds for any). *)
Definition con_initialize (p : program) (st : cst) : cst :=
  mkCst (map (fun c => fresh (ct_data c)) (p_eqs p)) (ct_mem st) None (mkRhs [] [] 0 0) (ct_draws st).

(** [Rank] of each class: conex/linear_constraint.h:51, soc_constraint.h:24,
    hermitian_psd.h:57, quadratic_cost.cc:25, psd_constraint.h:42,
    quadratic_cone_constraint.h:38, equality_constraint.h:30. *)
Definition con_rank (p : program) (i : nat) : nat :=
  match nth_error (p_eqs p) i with
  | Some c => match ct_data c with
              | CLinear _ A _ => length A
              | CSoc _ _ _ | CQuadCone _ _ _ _ => 2
              | CHerm _ n _ _ | CDenseLmi n _ _ => n
              | CQuad _ | CEq _ _ => 0
              end
  | None => 0
  end%nat.

(** Data and memory of constraint [i]. *)
Definition get_con (p : program) (st : cst) (i : nat) : res (container * cstate) :=
  match nth_error (p_eqs p) i, nth_error (ct_cons st) i with
  | Some c, Some s => Ok (c, s)
  | _, _ => UB
  end.

(** A second-order cone with its workspace, as the record of SocModel.v; [W] and
    [d] are the scaling point and the direction.  The matrix is given by its
    columns, the empty affine term was never filled. *)
Definition spin_of (l : list R) : spin := (nth 0 l 0, fun i => nth (S i) l 0).
Definition soc_of (n : nat) (A : matrix) (c : list R) (W d : spin) : soc :=
  mkSoc n (length A) (fun j => spin_of (nth j A [])) (match c with [] => None | _ => Some (spin_of c) end) W d.

(** The cone when an operation can use it: [W] was written, the order is that of
    the workspace and not zero (the scalar [*W0] lies outside the memory of a
    workspace of order zero, see C26), and the matrix has a column for each of
    the [vars] variables ([A * y] is undefined otherwise). *)
Definition soc_ready (n : nat) (A : matrix) (c : list R) (w : soc_ws) (vars : nat) : res soc :=
  W <- written (sw_W w) ;;
  if ((n =? 0) || negb (sw_n w =? n) || negb (length A =? vars))%nat then UB
  else Ok (soc_of n A c W (match sw_d w with Some d => d | None => (0, fun _ => 0) end)).
Definition soc_memory (o : soc) : cstate := SSoc (mkSocWs (so_n o) (Some (so_W o)) (Some (so_d o))).

(** A Hermitian constraint with its workspace, as the record of JordanModel.v. *)
Definition hyper_of (M : list matrix) : JordanModel.hyper := fun t r c => mget (nth t M []) r c.
Definition herm_of (n : nat) (As : list (list matrix)) (C : list matrix) (W WS : JordanModel.hyper) : JordanModel.hermitian :=
  JordanModel.mkHermitian n (map hyper_of As) (hyper_of C) W WS JordanModel.Zero.

(** [M] has [h] components of [n] rows and columns, and is Hermitian. *)
Definition hermitian_data (h n : nat) (M : list matrix) : bool :=
  ((length M =? h) && forallb (fun X => (length X =? n) && forallb (fun row => length row =? n) X) M)%nat
  && forallb (fun t => forallb (fun r => forallb (fun c =>
       if Req_EM_T (JordanModel.ConjugateTranspose (hyper_of M) t r c) (hyper_of M t r c) then true else false)
       (seq 0 n)) (seq 0 n)) (seq 0 h).

(** Reals, complex numbers, quaternions. *)
Definition associative_algebra (h : nat) : bool := ((h =? 1) || (h =? 2) || (h =? 4))%nat.

(** The constraint when an operation can use it: [W] was written and there is a
    matrix for each of the [vars] variables (with fewer matrices rows of the Schur
    complement stay unwritten, with more [y(i)] is out of bounds).  An affine term
    that was never set has no components, [at] throws (hermitian_psd.h:105).  Not
    modelled ([UB]): octonions, order zero, and data that are not Hermitian or of
    the wrong size, which the C++ interface accepts (the calls of the C interface
    keep them Hermitian, see C20). *)
Definition herm_ready (h n : nat) (As : list (list matrix)) (C : list matrix) (w : herm_ws) (vars : nat) : res JordanModel.hermitian :=
  W <- written (hw_W w) ;;
  match C with
  | [] => Throw
  | _ =>
      if (negb (associative_algebra h) || (n =? 0) || negb (hw_h w =? h) || negb (hw_n w =? n) || negb (length As =? vars))%nat
         || negb (forallb (hermitian_data h n) (C :: As))
      then UB
      else Ok (herm_of n As C W (match hw_WS w with Some WS => WS | None => JordanModel.Zero end))
  end.
Definition herm_memory (h : nat) (o : JordanModel.hermitian) (mapped : bool) : cstate :=
  SHerm (mkHermWs h (JordanModel.h_rank o) (Some (JordanModel.h_W o)) (Some (JordanModel.h_WS o)) mapped).
(** The members of [StepOptions] that a Hermitian constraint reads. *)
Definition herm_options (o : step_options) : JordanModel.step_options :=
  JordanModel.mkStepOptions (op_affine o) (op_e_weight o) (op_c_weight o) (op_step_size o).

(** [SetIdentity]: linear_constraint.cc:105, equality_constraint.h:31,
    quadratic_cost.cc:26, soc_constraint.h:25-28 (for order zero the memory is
    left alone, see [soc_ready]), hermitian_psd.h:54-56 (the new [W] has other
    memory than the one mapped by [workspace_.W]). *)
Definition con_identity (p : program) (st : cst) (i : nat) : cst :=
  match get_con p st i with
  | Ok (c, s) => match ct_data c, s with
                 | CLinear _ A _, SLinear w => set_con st i (SLinear (linear_identity A w))
                 | CSoc n _ _, SSoc w =>
                     if ((n =? 0) || negb (sw_n w =? n))%nat then st
                     else set_con st i (SSoc (mkSocWs n (Some (1, fun _ => 0)) (sw_d w)))
                 | CHerm h n _ _, SHerm w =>
                     if ((hw_h w =? h) && (hw_n w =? n) && associative_algebra h)%nat
                     then set_con st i (SHerm (mkHermWs h n (Some JordanModel.Identity) None false))
                     else st
                 | _, _ => st
                 end
  | _ => st
  end.

(** [PrepareStep]: linear_constraint.cc:108-128, equality_constraint.cc:31-36,
    quadratic_cost.cc:27-31, soc_constraint.cc:251-270 (the same in affine
    mode), hermitian_psd.cc:33-71.  The norm NaN has no effect in the comparison
    of conex/cone_program.h:84-86, like the number -1 which the comparison starts
    from (line 76). *)
Definition con_prepare (env : environment) (p : program) (st : cst) (i : nat) (o : step_options) (y : list R)
  : res (cst * (R * R)) :=
  '(c, s) <- get_con p st i ;;
  match ct_data c, s with
  | CLinear cols A b, SLinear w =>
      '(w', n) <- linear_prepare cols A b w o y ;;
      Ok (set_con st i (SLinear w'), n)
  | CEq _ b, SEq _ => l <- equality_prepare b y ;; Ok (set_con st i (SEq l), (0, 0))
  | CQuad _, SQuad => Ok (st, (0, 0))
  | CSoc n A b, SSoc w =>
      q <- soc_ready n A b w (length y) ;;
      '(q', r) <- SPrepareStep q (op_c_weight o) (fun j => nth j y 0) ;;
      Ok (set_con st i (soc_memory q'), r)
  | CHerm h n As C, SHerm w =>
      q <- herm_ready h n As C w (length y) ;;
      let '(q', r) := JordanModel.HPrepareStep h q (herm_options o) (fun j => nth j y 0) in
      match r with
      | None => Ok (set_con st i (herm_memory h q' true), (0, 0))
      | Some nsq =>
          Ok (draw (set_con st i (herm_memory h q' (hw_map w))),
              (match env_estimate env (ct_draws st) h n (JordanModel.h_WS q') (JordanModel.h_W q') with
               | Some (lo, hi) => LanczosModel.norm_from (op_e_weight o) lo hi
               | None => -1
               end, nsq))
      end
  | _, _ => UB
  end.

(** [TakeStep]: linear_constraint.cc:130-144, equality_constraint.h:35-37,
    quadratic_cost.cc:41, soc_constraint.cc:225-249, hermitian_psd.cc:9-31. *)
Definition con_take (p : program) (st : cst) (i : nat) (o : step_options) : res cst :=
  '(c, s) <- get_con p st i ;;
  match ct_data c, s with
  | CLinear _ _ _, SLinear w => w' <- linear_take w o ;; Ok (set_con st i (SLinear w'))
  | CEq _ _, SEq _ => Ok st
  | CQuad _, SQuad => Ok st
  | CSoc n A b, SSoc w =>
      _ <- written (sw_d w) ;;
      q <- soc_ready n A b w (length A) ;;
      Ok (set_con st i (soc_memory (STakeStep q (op_step_size o))))
  | CHerm h n As C, SHerm w =>
      _ <- written (hw_WS w) ;;
      q <- herm_ready h n As C w (length As) ;;
      q' <- JordanModel.HTakeStep h q (herm_options o) ;;
      Ok (set_con st i (herm_memory h q' true))
  | _, _ => UB
  end.

(** The infinite bounds of a line search as numbers.  The caller
    (conex/cone_program.cc:146-158) compares the bounds with numbers between
    -DBL_MAX and DBL_MAX, keeps the larger lower and the smaller upper one, and
    tests the order at the end: an infinity of the harmless sign or a NaN has no
    effect, one of the other sign makes that test fail. *)
Definition lower_number (x : ext) : R :=
  match x with Fin r => r | PInf => DBL_MAX + 1 | NInf | NaN => - DBL_MAX end.
Definition upper_number (x : ext) : R :=
  match x with Fin r => r | NInf => - DBL_MAX - 1 | PInf | NaN => DBL_MAX end.

(** [PerformLineSearch]: linear_constraint.cc:83-103,
    equality_constraint.h:49-55, quadratic_cost.cc:60-66 (the last two leave the
    defaults of conex/newton_step.h:46-47).  Second-order cones and Hermitian
    constraints have none: the [CONEX_DEMAND] of conex/constraint.h:25-28 prints a message and returns 1,
    which [bool] turns into failure. *)
Definition con_search (p : program) (st : cst) (i : nat) (params : line_params) (y0 y1 : list R)
  : res (cst * option (R * R)) :=
  '(c, s) <- get_con p st i ;;
  match ct_data c, s with
  | CLinear cols A b, SLinear w =>
      '(w', r) <- linear_search cols A b w params y0 y1 ;;
      Ok (set_con st i (SLinear w'),
          match r with None => None | Some (l, u) => Some (lower_number l, upper_number u) end)
  | CEq _ _, SEq _ => Ok (st, Some (- DBL_MAX, DBL_MAX))
  | CQuad _, SQuad => Ok (st, Some (- DBL_MAX, DBL_MAX))
  | CSoc _ _ _, SSoc _ => Ok (st, None)
  | CHerm _ _ _ _, SHerm _ => Ok (st, None)
  | _, _ => UB
  end.

(** [GetWeightedSlackEigenvalues]: linear_constraint.cc:147-162,
    equality_constraint.h:39-40, quadratic_cost.cc:43-44 (the last two leave the
    defaults of conex/newton_step.h:11-17), soc_constraint.cc:200-223,
    hermitian_psd.cc:73-91.  Eigenvalues that are NaN have no effect in the
    comparisons of conex/cone_program.cc:46-51, like the defaults. *)
Definition con_spectrum (env : environment) (p : program) (st : cst) (i : nat) (y : list R) (c_weight : R)
  : res (cst * (R * R * R * R)) :=
  '(c, s) <- get_con p st i ;;
  match ct_data c, s with
  | CLinear cols A b, SLinear w =>
      '(w', q) <- linear_spectrum cols A b w y c_weight ;;
      Ok (set_con st i (SLinear w'), q)
  | CEq _ _, SEq _ => Ok (st, (DBL_MAX, - DBL_MAX, 0, 0))
  | CQuad _, SQuad => Ok (st, (DBL_MAX, - DBL_MAX, 0, 0))
  | CSoc n A b, SSoc w =>
      q <- soc_ready n A b w (length y) ;;
      r <- SWeightedSlack q (fun j => nth j y 0) c_weight ;;
      Ok (st, r)
  | CHerm h n As C, SHerm w =>
      q <- herm_ready h n As C w (length y) ;;
      let '(trace, frobenius) := JordanModel.HWeightedSlack h q (fun j => nth j y 0) c_weight in
      let WS := JordanModel.Multiply h n (JordanModel.h_W q) (JordanModel.HNegativeSlack q c_weight (fun j => nth j y 0)) in
      let '(lambda_min, lambda_max) :=
        match env_estimate env (ct_draws st) h n WS (JordanModel.h_W q) with
        | Some (lo, hi) => (- hi, - lo)
        | None => (DBL_MAX, - DBL_MAX)
        end in
      Ok (draw st, (lambda_min, lambda_max, frobenius, trace))
  | _, _ => UB
  end.

(** [ConstructSchurComplementSystem] of one constraint, block size
    [num_variables_] (conex/supernodal_assembler.h:112-116).  The block of a
    second-order cone (soc_constraint.cc:272-303, [initialize] is true) is written
    whole; what was there before does not matter.  Of the block of a Hermitian
    constraint (hermitian_psd.cc:170-230) the lower triangle is written; the rest is
    not read (supernodal_assembler.cc:59-70). *)
Definition blank : JordanModel.schur := JordanModel.mkSchur (fun _ _ => 0) (fun _ => 0) (fun _ => 0) 0 0.
Definition schur_of (s : JordanModel.schur) (vars : nat) : schur :=
  mkSchur (JordanModel.sc_G s)
    (mkRhs (map (JordanModel.sc_AW s) (seq 0 vars)) (map (JordanModel.sc_AQc s) (seq 0 vars))
       (JordanModel.sc_wc s) (JordanModel.sc_cQc s)).
Definition soc_schur (q : soc) (vars : nat) : res schur :=
  s <- SSchur q true blank ;;
  Ok (schur_of s vars).
Definition con_schur (c : container) (s : cstate) : res (cstate * schur) :=
  match ct_data c, s with
  | CLinear cols A b, SLinear w =>
      '(w', q) <- linear_schur cols A b w (ct_vars c) ;; Ok (SLinear w', q)
  | CEq A b, SEq l => q <- equality_schur A b (ct_vars c) ;; Ok (SEq l, q)
  | CQuad Q, SQuad => q <- quadratic_schur Q (ct_vars c) ;; Ok (SQuad, q)
  | CSoc n A b, SSoc w =>
      o <- soc_ready n A b w (ct_vars c) ;;
      q <- soc_schur o (ct_vars c) ;;
      Ok (SSoc w, q)
  | CHerm h n As C, SHerm w =>
      o <- herm_ready h n As C w (ct_vars c) ;;
      Ok (SHerm w, schur_of (JordanModel.HSchur h o true blank) (ct_vars c))
  | _, _ => UB
  end.

Section Solver.
  (** [mode_] and [iterative_refinement_iterations_], set by every solve
      (conex/cone_program.cc:303-305). *)
  Variable mode : solver_mode.
  Variable env : environment.

  (** The solver object is determined by the arguments it was built from
      (conex/cone_program.cc:96-110). *)
  Definition with_solver {A} (p : program) (f : list (list nat) -> MatrixData -> TriWS -> list binding -> res A)
    : res A :=
    match p_solver p with
    | None => UB
    | Some (cliques, duals) => '(d, o, bs) <- build cliques duals ;; f duals d o bs
    end.

  (** conex/cone_program.cc:338-341 ([solver->Assemble()], then
      [AssembleSchurComplementResiduals]).  The blocks of the constraints are
      computed in the elimination order; as each constraint only touches its own
      memory the order does not matter.  A constraint without workspace is not
      bound, but its unmapped vectors are read by
      [AssembleSchurComplementResiduals]. *)
  Definition con_assemble (p : program) (st : cst) : res cst :=
    with_solver p (fun duals d o bs =>
      q <- mapM (fun i => '(c, s) <- get_con p st i ;; con_schur c s) (seq 0 (length (p_eqs p))) ;;
      let G := fun i => sc_G (snd (nth i q (SOther, mkSchur (fun _ _ => 0) (mkRhs [] [] 0 0)))) in
      sys <- AssembleSchurComplementResiduals (p_sys p) (p_cliques p) (map (fun x => sc_rhs (snd x)) q) ;;
      Ok (mkCst (map fst q) (Assemble R 0 Rplus bs (d_order d) G (ct_mem st)) None sys (ct_draws st))).

  (** conex/kkt_solver.cc:172-199.  In QR mode the factorization does not fail. *)
  Definition con_factor (p : program) (st : cst) : res (cst * bool) :=
    with_solver p (fun duals d o bs =>
      match mode with
      | Refine iters =>
          r <- Factor o d duals iters (ct_mem st) ;;
          match r with
          | None => Ok (mkCst (ct_cons st) (ct_mem st) None (ct_sys st) (ct_draws st), false)
          | Some FK =>
              Ok (mkCst (ct_cons st) (match fst FK with FChol m | FLdlt m _ _ => m end) (Some (Blocks FK)) (ct_sys st) (ct_draws st), true)
          end
      | Qr solve =>
          K <- dense_kkt o d (ct_mem st) ;;
          Ok (mkCst (ct_cons st) (ct_mem st) (Some (Dense K (solve (d_N d) K))) (ct_sys st) (ct_draws st), true)
      end).

  (** A solve in QR mode.  Only exact solutions are modelled: when the matrix is
      singular, or so nearly that [ColPivHouseholderQR] neglects a pivot, the vector
      it returns need not be a solution ([UB]). *)
  Definition exact_solve (n : nat) (K : mat) (solve : vec -> vec) (b : list R) : res (list R) :=
    let x := solve (fun i => nth i b 0) in
    if forallb (fun u => if Req_EM_T (rsum n (fun v => K u v * x v)) (nth u b 0) then true else false) (seq 0 n)
    then Ok (map x (seq 0 (length b))) else UB.

  (** conex/kkt_solver.cc:220-263. *)
  Definition con_solve (p : program) (st : cst) (b : list R) : res (list R) :=
    with_solver p (fun duals d o bs =>
      match ct_fact st, mode with
      | Some (Blocks FK), Refine iters =>
          x <- SolveInPlace o d FK iters (length b) (fun i => nth i b 0) ;;
          Ok (map x (seq 0 (length b)))
      | Some (Dense K solve), Qr _ => if (length b =? d_N d)%nat then exact_solve (d_N d) K solve b else Throw
      | _, _ => UB
      end).

  (** conex/kkt_solver.cc:201-218 with the conversion of the result on line 510 of
      conex/cone_program.cc: one solve, no refinement.  The length is only checked
      by an assertion. *)
  Definition con_solve_once (p : program) (st : cst) (b : list R) : res (list R) :=
    with_solver p (fun duals d o bs =>
      match ct_fact st with
      | None => UB
      | Some (Blocks FK) =>
          if (length b =? d_N d)%nat then
            x <- apply_solver o d (fst FK) (fun i => nth i b 0) ;;
            Ok (map x (seq 0 (length b)))
          else UB
      | Some (Dense K solve) => if (length b =? d_N d)%nat then exact_solve (d_N d) K solve b else UB
      end).

  Definition conex : backend := {|
    bk_state := cst;
    bk_initialize := con_initialize;
    bk_rank := con_rank;
    bk_identity := con_identity;
    bk_prepare := con_prepare env;
    bk_take := con_take;
    bk_search := con_search;
    bk_spectrum := con_spectrum env;
    bk_assemble := con_assemble;
    bk_sys := ct_sys;
    bk_factor := con_factor;
    bk_solve := con_solve;
    bk_solve_once := con_solve_once;
    bk_not_finite := env_not_finite env
  |}.
End Solver.

Arguments con_factor _%nat_scope _ _.
Arguments con_solve _%nat_scope _ _ _.
Arguments conex _%nat_scope _.

(** One call of [Solve]: mode and refinement iterations come from the options
    (conex/cone_program.cc:303-305). *)
Definition mode_of (env : environment) (c : config) : solver_mode :=
  if (kkt_solver c =? 2)%Z then Qr (env_qr env) else Refine (Z.to_nat (iterative_refinement_iterations c)).
Definition ConexSolve (env : environment) (p : program) (n : numeric cst) (c : config)
  : res (solve_result (conex (mode_of env c) env)) :=
  Solve (conex (mode_of env c) env) p n c.

(** conex/cone_program.h:120-134 with conex/constraint.h:158-163 for constraint
    [i]: the entries of [W], divided by [sqrt_inv_mu[num_iter - 1] * b_scaling]
    unless the last solve reported primal infeasibility.  Equality constraints and
    quadratic costs have no entries.  The array [W] of a second-order cone is a
    dummy that is never written (conex/workspace_soc.h:8, 43-46): [UB].  That of a
    Hermitian constraint shows the real part of its scaling point, column by column,
    unless it is not mapped to it.  No value is
    defined before a solve with at least one iteration ([UB]); so is a division
    by zero. *)
Definition stored_dual (x : cdata) (s : cstate) : res (list R) :=
  match x, s with
  | CLinear _ _ _, SLinear w => written (lw_W w)
  | CEq _ _, SEq _ | CQuad _, SQuad => Ok []
  | CHerm h n _ _, SHerm w =>
      W <- written (hw_W w) ;;
      if hw_map w then Ok (map (fun k => W 0%nat (k mod n)%nat (k / n)%nat) (seq 0 (n * n))) else UB
  | _, _ => UB
  end.
Definition GetDualVariable (p : program) (n : numeric cst) (i : nat) : res (list R) :=
  '(c, s) <- get_con p (nm_bk n) i ;;
  W <- stored_dual (ct_data c) s ;;
  if st_primal_infeasible (p_status p) then Ok W
  else
    match p_stats p with
    | Some ss =>
        match ss_num_iter ss with
        | Some (S k) =>
            ism <- get_cell (nm_area n) k ;;
            bs <- get_cell (nm_area n) (b_cell (ss_max_iter ss)) ;;
            if Req0 (ism * bs) then UB else Ok (map (fun x => x / (ism * bs)) W)
        | _ => UB
        end
    | None => UB
    end.
