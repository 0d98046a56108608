(** The Python class around the C interface, interfaces/python/ConexProgram.py.

    Simplifications: a Python exception ends the client and is [Throw]; numpy
    arrays are matrices and vectors of the declared shapes (the conversions of
    SWIG are the identity); printing is left out; the lists [self.A] and the
    attribute [self.n], which no method below reads, are left out, and of the
    matrices in [self.c] only the shapes are kept.  No proofs in this file. *)
From Coq Require Import List Arith ZArith Reals Bool.
From Verif Require Import Base ProgramModel ApiModel SolveModel ConcreteBackend ClientModel.
Import ListNotations.
Open Scope R_scope.

(** Lines 59-69: the program, [num_constraints], the shapes of [c], [m]. *)
Record pyprog := mkPy { py_a : program; py_count : nat; py_c : list (nat * nat); py_m : Z }.

(** Lines 59-69; the status of [CONEX_SetNumberOfVariables] is ignored.  The
    default argument is [m = -1]. *)
Definition py_new (m : Z) : res pyprog :=
  if (0 <=? m)%Z then
    '(p, _) <- api_step CONEX_CreateConeProgram (ASetNumberOfVariables m) ;;
    Ok (mkPy p 0 [] m)
  else Ok (mkPy CONEX_CreateConeProgram 0 [] m).

(** Lines 115-125; [c0]: the structure before [CONEX_SetDefaultOptions]. *)
Definition DefaultConfiguration (c0 : api_config) : api_config :=
  let c := CONEX_SetDefaultOptions c0 in
  mkApi 1 (a_initialization_mode c) 1000 (a_minimum_mu c) (10 ^ 20) 1
    (a_enable_line_search c) (a_dinf_upper_bound c) 1 (a_final_centering_tolerance c)
    (a_initial_centering_steps_warmstart c) (a_initial_centering_steps_coldstart c)
    (a_warmstart_abort_threshold c) 100 (a_iterative_refinement_iterations c) (10 ^ 8)
    (a_kkt_error_tolerance c) (a_enable_rescaling c) (a_kkt_solver c).

(** Lines 129-133: what [Solve] makes of its argument; [None]: no argument. *)
Definition solve_options (c0 : api_config) (config : option api_config) : api_config :=
  let c := match config with Some c => c | None => DefaultConfiguration c0 end in
  mkApi (a_prepare_dual_variables c) (a_initialization_mode c) (a_inv_sqrt_mu_max c) (a_minimum_mu c)
    (a_maximum_mu c) (a_divergence_upper_bound c) 1 (a_dinf_upper_bound c) (a_final_centering_steps c)
    (a_final_centering_tolerance c) (a_initial_centering_steps_warmstart c)
    (a_initial_centering_steps_coldstart c) (a_warmstart_abort_threshold c) (a_max_iterations c)
    (a_iterative_refinement_iterations c) (a_infeasibility_threshold c) (a_kkt_error_tolerance c) 0
    (a_kkt_solver c).
(** Lines 142-143. *)
Definition maximize_options (c0 : api_config) (config : option api_config) : api_config :=
  match config with Some c => c | None => DefaultConfiguration c0 end.

(** The methods that change the object.  [column]: the vector [c] of
    [AddLinearInequality] is a column and not a flat array. *)
Inductive pycall :=
| PyAddLinearInequality (cols : nat) (A : matrix) (c : list R) (column : bool)
| PyAddLinearInequalities (cols : nat) (rows : list (list R * R * R))
| PyAddDenseLMI (n : nat) (As : list matrix) (C : matrix)
| PyAddSparseLMI (n : nat) (As : list matrix) (C : matrix) (vars : list Z)
| PyAddQuadraticCost (rows cols : nat) (P : matrix)
| PyNewLMI (order hdim : Z)
| PyNewLorentzCone (order : Z)
| PyNewLinearInequality (rows : nat)
| PyNewQuadraticCost
| PyUpdateQuadraticCostMatrix (i : Z) (val : R) (r c : Z)
| PyUpdateLinearOperator (i : Z) (val : R) (var r c dim : Z)
| PyUpdateAffineTerm (i : Z) (val : R) (r c dim : Z)
| PySolve (c0 : api_config) (config : option api_config) (o : solve_outcome)
| PyMaximize (b : list R) (c0 : api_config) (config : option api_config) (o : solve_outcome).

(** A call whose status is tested: anything but zero raises an exception. *)
Definition demanded (p : program) (k : call) : res (program * reply) :=
  '(p', r) <- api_step p k ;; if (rp_return r =? 0)%Z then Ok (p', r) else Throw.

(** [np.max(variables) + 1 > self.m], line 234; the maximum of nothing raises. *)
Definition too_large (vars : list Z) (m : Z) : bool := existsb (fun v => (m <? v + 1)%Z) vars.

Definition py_step (w : pyprog) (k : pycall) : res pyprog :=
  let p := py_a w in let n := py_count w in let c := py_c w in
  match k with
  | PyAddLinearInequality cols A b column =>       (* 98-105 *)
      '(p', _) <- api_step p (AAddDenseLinear cols A b) ;;
      Ok (mkPy p' (n + 1) (c ++ [if column then (length b, 1%nat) else (1%nat, length b)]) (Z.of_nat cols))
  | PyAddLinearInequalities cols rows =>           (* 107-114 *)
      '(p', _) <- api_step p (AAddLinearInequalities cols rows) ;;
      Ok (mkPy p' (n + 1) (c ++ [(1%nat, length rows)]) (py_m w))
  | PyAddDenseLMI m As C =>                        (* 222-231 *)
      '(p', _) <- api_step p (AAddDenseLMI m As C) ;;
      Ok (mkPy p' (n + 1) (c ++ [(m, m)]) (Z.of_nat (length As)))
  | PyAddSparseLMI m As C vars =>                  (* 233-242 and 31-39 *)
      if (length vars =? 0)%nat then Throw
      else if too_large vars (py_m w) then Throw
      else if negb (length vars =? length As)%nat then Throw
      else
        '(p', _) <- api_step p (AAddSparseLMI m As C vars) ;;
        Ok (mkPy p' (n + 1) (c ++ [(m, m)]) (py_m w))
  | PyAddQuadraticCost rows cols P =>              (* 90-97 *)
      if negb ((Z.of_nat rows =? py_m w) && (Z.of_nat cols =? py_m w))%Z then Throw
      else '(p', _) <- api_step p (AAddQuadraticCost cols P) ;; Ok (mkPy p' n c (py_m w))
  | PyNewLMI order hdim =>                         (* 171-178 *)
      '(p', _) <- demanded p (ANewLMI order hdim false) ;;
      Ok (mkPy p' (n + 1) (c ++ [(Z.to_nat order, Z.to_nat order)]) (py_m w))
  | PyNewLorentzCone order =>                      (* 180-186 *)
      '(p', _) <- demanded p (ANewLorentzCone order false) ;; Ok (mkPy p' (n + 1) c (py_m w))
  | PyNewLinearInequality rows =>                  (* 188-194 *)
      '(p', _) <- demanded p (ANewLinearInequality rows false) ;; Ok (mkPy p' (n + 1) c (py_m w))
  | PyNewQuadraticCost =>                          (* 196-202 *)
      '(p', _) <- demanded p (ANewQuadraticCost false) ;; Ok (mkPy p' (n + 1) c (py_m w))
  | PyUpdateQuadraticCostMatrix i val r q =>       (* 204-208 *)
      '(p', _) <- demanded p (AUpdateQuadraticCostMatrix i val r q) ;; Ok (mkPy p' n c (py_m w))
  | PyUpdateLinearOperator i val var r q dim =>    (* 210-214 *)
      '(p', _) <- demanded p (AUpdateLinearOperator i val var r q dim) ;; Ok (mkPy p' n c (py_m w))
  | PyUpdateAffineTerm i val r q dim =>            (* 216-220 *)
      '(p', _) <- demanded p (AUpdateAffineTerm i val r q dim) ;; Ok (mkPy p' n c (py_m w))
  | PySolve c0 config o =>                         (* 128-137 *)
      '(p', _) <- api_step p (ASolve (solve_options c0 config) o) ;; Ok (mkPy p' n c (py_m w))
  | PyMaximize b c0 config o =>                    (* 140-156 *)
      if negb (Z.of_nat (length b) =? py_m w)%Z then Throw
      else '(p', _) <- api_step p (AMaximize b (maximize_options c0 config) o) ;; Ok (mkPy p' n c (py_m w))
  end.
Fixpoint py_run (w : pyprog) (ks : list pycall) : res pyprog :=
  match ks with [] => Ok w | k :: t => w' <- py_step w k ;; py_run w' t end.

(** Lines 140-156 with the numeric state [st]: status and vector.  The array that
    is handed over has [m] ones; writing more numbers is out of bounds. *)
Definition py_array (m : Z) (y : yout) : res yout :=
  match y with
  | YUntouched => Ok (YVec (repeat 1 (Z.to_nat m)))
  | YVec l => if (Z.to_nat m <? length l)%nat then UB else Ok (YVec l)
  | _ => Ok y
  end.
Definition py_maximize (env : environment) (w : pyprog) (st : numeric cst) (b : list R) (c0 : api_config) (config : option api_config)
  : res (Z * yout) :=
  if negb (Z.of_nat (length b) =? py_m w)%Z then Throw
  else
    s <- CONEX_Maximize env (py_a w) st b (maximize_options c0 config) ;;
    match s with
    | Returned _ r => y <- py_array (py_m w) (rt_y _ r) ;; Ok (rt_value _ r, y)
    | _ => UB
    end.

(** Lines 158-169: for every [i < num_constraints] an array of the shape of [c[i]]
    is handed to [CONEX_GetDualVariable] (interfaces/conex.cc:114-122,
    conex/cone_program.h:120-134); [c[i]] raises an exception if there is none.
    An entry of the result is the number
    of entries of the array and the number of those that are written. *)
Definition GetDualVariables (w : pyprog) : res (list (nat * nat)) :=
  mapM (fun i =>
    match nth_error (py_c w) i with
    | None => Throw
    | Some (r, q) =>
        let written := match nth_error (p_eqs (py_a w)) i with
                       | Some ct => dual_variable_size (i <? length (p_kkt (py_a w)))%nat (ct_data ct)
                       | None => 0%nat
                       end in
        if (r * q <? written)%nat then UB else Ok ((r * q)%nat, written)
    end) (seq 0 (py_count w)).

(** Lines 244-277: the numbers that are accumulated.  For each constraint: is it a
    vector, [s . x] (the trace), the smallest eigenvalue (entry) of [s] and of [x].
    [S], [X]: the lists [Errors.min_eig_S], [min_eig_X] (lines 14-15), which belong
    to the class and not to the object. *)
Record observed := mkObs { ob_vector : bool; ob_dot : R; ob_s : R; ob_x : R }.
Definition ComputeErrors (S X : list R) (l : list observed) : R * list R * list R :=
  fold_left (fun acc o =>
    match acc with (d, s, x) => (if ob_vector o then ob_dot o else d + ob_dot o, s ++ [ob_s o], x ++ [ob_x o]) end) l (0, S, X).

(** Lines 74-88: a record after the call of [CONEX_GetIterationStats] (line 87):
    the index that was copied to it, [None] if it is still as SWIG made it. *)
Definition GetIterationNumberStats (w : pyprog) (num : Z) : res (option nat) := GetIterationStats (p_stats (py_a w)) num.
(** Its field [iteration_number]; a fresh record is all zeros. *)
Definition iteration_number (s : option nat) : nat := match s with Some i => i | None => 0%nat end.
Definition PyGetIterationStats (w : pyprog) : res (list (option nat)) :=
  stats <- GetIterationNumberStats w (-1) ;;
  mapM (fun i => GetIterationNumberStats w (Z.of_nat i)) (seq 0 (iteration_number stats + 1)).
