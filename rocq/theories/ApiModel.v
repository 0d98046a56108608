(** Model of the C interface, interfaces/conex.cc and interfaces/conex.h.
    Pointers to program objects are assumed valid except for the null checks the
    code makes; matrices arrive as lists of rows with the declared dimensions.
    No proofs in this file. *)
From Coq Require Import List Arith ZArith Reals Bool.
From Verif Require Import Base ProgramModel PreprocessModel.
Import ListNotations.
Open Scope R_scope.

(** ** Options *)

(** conex/cone_program.h:17-38. *)
Record config := mkConfig {
  prepare_dual_variables : Z;
  initialization_mode : Z;
  inv_sqrt_mu_max : R;
  minimum_mu : R;
  maximum_mu : R;
  divergence_upper_bound : R;
  enable_line_search : Z;
  dinf_upper_bound : R;
  final_centering_steps : Z;
  final_centering_tolerance : R;
  initial_centering_steps_warmstart : Z;
  initial_centering_steps_coldstart : Z;
  warmstart_abort_threshold : R;
  max_iterations : Z;
  infeasibility_threshold : R;
  kkt_error_tolerance : R;
  kkt_solver : Z;
  enable_rescaling : Z;
  iterative_refinement_iterations : Z
}.

(** The default member initialisers, conex/cone_program.h:18-37. *)
Definition default_config : config :=
  mkConfig 0 0 1000 (/ 10 ^ 15) (10 ^ 4) 1 0 1 5 (1 / 100) 0 0 2 25 (10 ^ 5) (10 ^ 10) 0 1 0.

(** interfaces/conex.h:10-30, in declaration order. *)
Record api_config := mkApi {
  a_prepare_dual_variables : Z;
  a_initialization_mode : Z;
  a_inv_sqrt_mu_max : R;
  a_minimum_mu : R;
  a_maximum_mu : R;
  a_divergence_upper_bound : R;
  a_enable_line_search : Z;
  a_dinf_upper_bound : R;
  a_final_centering_steps : Z;
  a_final_centering_tolerance : R;
  a_initial_centering_steps_warmstart : Z;
  a_initial_centering_steps_coldstart : Z;
  a_warmstart_abort_threshold : R;
  a_max_iterations : Z;
  a_iterative_refinement_iterations : Z;
  a_infeasibility_threshold : R;
  a_kkt_error_tolerance : R;
  a_enable_rescaling : Z;
  a_kkt_solver : Z
}.

(** interfaces/conex.cc:65-90; field by field in the order of the source. *)
Definition APIConvertSolverConfiguration (c : api_config) : config := {|
  prepare_dual_variables := a_prepare_dual_variables c;
  initialization_mode := a_initialization_mode c;
  inv_sqrt_mu_max := a_inv_sqrt_mu_max c;
  minimum_mu := a_minimum_mu c;
  maximum_mu := a_maximum_mu c;
  divergence_upper_bound := a_divergence_upper_bound c;
  enable_line_search := a_enable_line_search c;
  dinf_upper_bound := a_dinf_upper_bound c;
  final_centering_steps := a_final_centering_steps c;
  final_centering_tolerance := a_final_centering_tolerance c;
  initial_centering_steps_warmstart := a_initial_centering_steps_warmstart c;
  initial_centering_steps_coldstart := a_initial_centering_steps_coldstart c;
  warmstart_abort_threshold := a_warmstart_abort_threshold c;
  max_iterations := a_max_iterations c;
  iterative_refinement_iterations := a_iterative_refinement_iterations c;
  infeasibility_threshold := a_infeasibility_threshold c;
  kkt_error_tolerance := a_kkt_error_tolerance c;
  enable_rescaling := a_enable_rescaling c;
  kkt_solver := a_kkt_solver c
|}.

(** interfaces/conex.cc:231-257 on a non-null pointer to [c]: the listed fields
    are assigned, the others keep their value. *)
Definition CONEX_SetDefaultOptions (c : api_config) : api_config := {|
  a_prepare_dual_variables := prepare_dual_variables default_config;
  a_initialization_mode := initialization_mode default_config;
  a_inv_sqrt_mu_max := inv_sqrt_mu_max default_config;
  a_minimum_mu := minimum_mu default_config;
  a_maximum_mu := maximum_mu default_config;
  a_divergence_upper_bound := divergence_upper_bound default_config;
  a_enable_line_search := enable_line_search default_config;
  a_dinf_upper_bound := dinf_upper_bound default_config;
  a_final_centering_steps := final_centering_steps default_config;
  a_final_centering_tolerance := final_centering_tolerance default_config;
  a_initial_centering_steps_warmstart := initial_centering_steps_warmstart default_config;
  a_initial_centering_steps_coldstart := initial_centering_steps_coldstart default_config;
  a_warmstart_abort_threshold := warmstart_abort_threshold default_config;
  a_max_iterations := max_iterations default_config;
  a_iterative_refinement_iterations := a_iterative_refinement_iterations c;
  a_infeasibility_threshold := infeasibility_threshold default_config;
  a_kkt_error_tolerance := kkt_error_tolerance default_config;
  a_enable_rescaling := enable_rescaling default_config;
  a_kkt_solver := a_kkt_solver c
|}.

(** ** Calls *)

(** interfaces/conex.cc:20-33, second half: [true] when the check passes. *)
Definition safer_cast (p : program) : bool :=
  if p_init p then (NumberOfConstraints p + 2 =? length (p_workspaces p))%nat
  else (length (p_workspaces p) =? 0)%nat.

(** interfaces/conex.cc:44-64.  Reading the diagonal of a matrix with fewer
    columns than rows leaves the buffer. *)
Definition nonzero_vars (M : matrix) : list nat :=
  filter (fun i => if Rlt_dec 0 (nth i (nth i M []) 0) then true else false) (seq 0 (length M)).
Definition NonZeroSubMat (cols : nat) (M : matrix) : res (list nat * matrix) :=
  if (cols <? length M)%nat then UB
  else
    let vars := nonzero_vars M in
    Ok (vars, map (fun i => map (fun j => (nth j (nth i M []) 0 + nth i (nth j M []) 0) / 2) vars) vars).

(** What the part of a solve that is not modelled here decides: the returned
    value, the status and the number of completed iterations.  SolveModel.v
    models that part. *)
Record solve_outcome := mkOutcome {
  so_return : Z;
  so_status : status;
  so_num_iter : option nat
}.

(** The calls of the C interface, and the C++ cost functions.
    [null_id]: the pointer for the returned identifier is null. *)
Inductive call :=
| ASetNumberOfVariables (n : Z)
| ANewLMI (order hdim : Z) (null_id : bool)
| ANewLinearInequality (num_rows : nat) (null_id : bool)
| ANewQuadraticCost (null_id : bool)
| AAddQuadraticCost (cols : nat) (A : matrix)
| ANewLorentzCone (order : Z) (null_id : bool)
| AUpdateLinearOperator (i : Z) (val : R) (var r c dim : Z)
| AUpdateAffineTerm (i : Z) (val : R) (r c dim : Z)
| AUpdateQuadraticCostMatrix (i : Z) (val : R) (r c : Z)
| AAddDenseLMI (n : nat) (As : list matrix) (C : matrix)
| AAddSparseLMI (n : nat) (As : list matrix) (C : matrix) (vars : list Z)
| AAddDenseLinear (cols : nat) (A : matrix) (c : list R)
| AAddLinearInequalities (cols : nat) (rows : list (list R * R * R))
| AGetDualVariableSize (i : Z)
| AMaximize (b : list R) (c : api_config) (o : solve_outcome)
| ASolve (c : api_config) (o : solve_outcome)
(** C++ calls of class [Program]. *)
| PAddConstraint (lvalue : bool) (x : cdata) (vars : option (list Z))
| PAddLinearCost (b : list R)
| PClearLinearCosts
| PAddQuadraticCost (Q : matrix) (vars : list Z).

(** Returned value, and the identifier written through the output pointer. *)
Record reply := mkReply { rp_return : Z; rp_id : option Z }.
Definition fail : reply := mkReply FAILURE None.

(** conex/cone_program.cc:235-533, the effects on the program object outside
    the constraints' numeric state: precondition (237-240), status reset
    (246-248), empty program (266-271), [Initialize] (273), and the results
    [o] of the rest. *)
Definition quadratic_precondition (p : program) (c : config) : bool :=
  negb (p_quadratic p)
  || (negb (enable_line_search c =? 0)%Z && (enable_rescaling c =? 0)%Z).
Definition Solve_program (p : program) (c : config) (o : solve_outcome)
  : res (program * Z) :=
  if negb (quadratic_precondition p c) then Ok (p, 1%Z)
  else
    let p1 := set_status p (mkStatus false (st_num_iterations (p_status p)) false false) in
    if (NumberOfConstraints p =? 0)%nat then Ok (p1, 0%Z)
    else
      p2 <- Initialize p1 (initialization_mode c =? 0)%Z (Z.to_nat (max_iterations c)) ;;
      let st := match p_stats p2 with
                | Some s => Some (mkStats (ss_max_iter s)
                                    (match so_num_iter o with
                                     | Some k => Some k
                                     | None => ss_num_iter s
                                     end))
                | None => None
                end in
      Ok (set_status (set_stats p2 st) (so_status o), so_return o).

(** [*constraint_id = prg->NumberOfConstraints() - 1]. *)
Definition last_id (p : program) : Z := (Z.of_nat (NumberOfConstraints p) - 1)%Z.

(** [A_i >= 0] tests and calls follow the order of the source. *)
Definition api_step (p : program) (k : call) : res (program * reply) :=
  match k with
  | ASetNumberOfVariables n =>                     (* interfaces/conex.cc:399-407 *)
      if negb (1 <=? n)%Z then Ok (p, fail)
      else if negb (safer_cast p) then Ok (p, fail)
      else if negb (p_n p =? 0)%nat then Ok (p, fail)
      else Ok (SetNumberOfVariables p (Z.to_nat n), mkReply SUCCESS None)
  | ANewLMI order hdim null_id =>                  (* interfaces/conex.cc:287-316 *)
      if negb (1 <=? order)%Z then Ok (p, fail)
      else if null_id then Ok (p, fail)
      else if negb ((hdim =? 1) || (hdim =? 2) || (hdim =? 4) || (hdim =? 8))%Z then Ok (p, fail)
      else if negb (safer_cast p) then Ok (p, fail)
      else if (hdim =? 8)%Z && negb (order <=? 3)%Z then Ok (p, fail)
      else
        '(p', _) <- AddConstraint p false
                      (CHerm (Z.to_nat hdim) (Z.to_nat order) [] []) None ;;
        Ok (p', mkReply SUCCESS (Some (last_id p')))
  | ANewLinearInequality num_rows null_id =>       (* interfaces/conex.cc:318-329 *)
      if null_id then Ok (p, fail)
      else if negb (safer_cast p) then Ok (p, fail)
      else
        '(p', s) <- AddConstraint p false
                      (CLinear (p_n p) (zeros num_rows (p_n p)) (repeat 0 num_rows)) None ;;
        Ok (p', mkReply s (Some (last_id p')))
  | ANewQuadraticCost null_id =>                   (* interfaces/conex.cc:331-341 *)
      if null_id then Ok (p, fail)
      else if negb (safer_cast p) then Ok (p, fail)
      else
        '(p', s) <- AddQuadraticCost_all p (zeros (p_n p) (p_n p)) ;;
        Ok (p', mkReply s (Some (last_id p')))
  | AAddQuadraticCost cols A =>                    (* interfaces/conex.cc:343-354 *)
      if negb (safer_cast p) then Ok (p, fail)
      else
        '(vars, Q) <- NonZeroSubMat cols A ;;
        '(p', s) <- AddQuadraticCost p Q (map Z.of_nat vars) ;;
        Ok (p', mkReply s None)
  | ANewLorentzCone order null_id =>               (* interfaces/conex.cc:384-397 *)
      if negb (1 <=? order)%Z then Ok (p, fail)
      else if null_id then Ok (p, fail)
      else if negb (safer_cast p) then Ok (p, fail)
      else
        '(p', _) <- AddConstraint p false (CSoc (Z.to_nat order) [] []) None ;;
        Ok (p', mkReply SUCCESS (Some (last_id p')))
  | AUpdateLinearOperator i val var r c dim =>     (* interfaces/conex.cc:365-373 *)
      if negb (safer_cast p) then Ok (p, fail)
      else if negb (i <? Z.of_nat (NumberOfConstraints p))%Z then Ok (p, fail)
      else
        '(p', s) <- UpdateLinearOperatorOfConstraint p i val var r c dim ;;
        Ok (p', mkReply s None)
  | AUpdateAffineTerm i val r c dim =>             (* interfaces/conex.cc:375-382 *)
      if negb (safer_cast p) then Ok (p, fail)
      else if negb (i <? Z.of_nat (NumberOfConstraints p))%Z then Ok (p, fail)
      else
        '(p', s) <- UpdateAffineTermOfConstraint p i val r c dim ;;
        Ok (p', mkReply s None)
  | AUpdateQuadraticCostMatrix i val r c =>        (* interfaces/conex.cc:356-363 *)
      if negb (safer_cast p) then Ok (p, fail)
      else if negb (i <? Z.of_nat (NumberOfConstraints p))%Z then Ok (p, fail)
      else
        '(p', s) <- UpdateAffineTermOfConstraint p i val r c 0%Z ;;
        Ok (p', mkReply s None)
  | AAddDenseLMI n As C =>                         (* interfaces/conex.cc:137-160 *)
      let constraint_id := Z.of_nat (NumberOfConstraints p) in
      '(p', _) <- AddConstraint p true (CDenseLmi n As C) None ;;
      Ok (p', mkReply constraint_id None)
  | AAddSparseLMI n As C vars =>                   (* interfaces/conex.cc:162-188 *)
      let constraint_id := Z.of_nat (NumberOfConstraints p) in
      '(p', _) <- AddConstraint p true (CDenseLmi n As C) (Some vars) ;;
      Ok (p', mkReply constraint_id None)
  | AAddDenseLinear cols A c =>                    (* interfaces/conex.cc:216-229 *)
      let constraint_id := Z.of_nat (NumberOfConstraints p) in
      '(p', _) <- AddConstraint p true (CLinear cols A c) None ;;
      Ok (p', mkReply constraint_id None)
  | AAddLinearInequalities cols rows =>            (* interfaces/conex.cc:190-215 *)
      (* A row that is not a number leaves the real-number model: UB. *)
      match PreprocessLinearInequality rows with
      | None => UB
      | Some s =>
          '(p1, _) <- (if (0 <? length (sp_ineq s))%nat
                       then AddConstraint p false
                              (CLinear cols (map fst (sp_ineq s)) (map snd (sp_ineq s))) None
                       else Ok (p, SUCCESS)) ;;
          '(p2, _) <- (if (0 <? length (sp_eq s))%nat
                       then AddConstraint p1 false
                              (CEq (map fst (sp_eq s)) (map snd (sp_eq s))) None
                       else Ok (p1, SUCCESS)) ;;
          Ok (p2, mkReply (-1)%Z None)
      end
  | AGetDualVariableSize i =>                      (* interfaces/conex.cc:124-127 *)
      Ok (p, mkReply (GetDualVariableSize p i) None)
  | AMaximize b c o =>       (* interfaces/conex.cc:93-105, conex/cone_program.cc:547-552 *)
      let '(p1, _) := AddLinearCost (ClearLinearCosts p) (map Ropp b) in
      '(p', s) <- Solve_program p1 (APIConvertSolverConfiguration c) o ;;
      Ok (p', mkReply s None)
  | ASolve c o =>                                  (* interfaces/conex.cc:107-112 *)
      '(p', s) <- Solve_program p (APIConvertSolverConfiguration c) o ;;
      Ok (p', mkReply s None)
  | PAddConstraint lvalue x vars =>                (* conex/cone_program.h:191-218 *)
      '(p', s) <- AddConstraint p lvalue x vars ;;
      Ok (p', mkReply s None)
  | PAddLinearCost b =>                            (* conex/cone_program.cc:226-231 *)
      let '(p', s) := AddLinearCost p b in Ok (p', mkReply s None)
  | PClearLinearCosts =>                           (* conex/cone_program.cc:233 *)
      Ok (ClearLinearCosts p, mkReply 0%Z None)
  | PAddQuadraticCost Q vars =>                    (* conex/cone_program.cc:554-560 *)
      '(p', s) <- AddQuadraticCost p Q vars ;;
      Ok (p', mkReply s None)
  end.

(** A client program: a sequence of calls on the object made by
    [CONEX_CreateConeProgram] (interfaces/conex.cc:129-131). *)
Fixpoint api_run (p : program) (ks : list call) : res (program * list reply) :=
  match ks with
  | [] => Ok (p, [])
  | k :: t =>
      '(p1, r) <- api_step p k ;;
      '(p2, rs) <- api_run p1 t ;;
      Ok (p2, r :: rs)
  end.
Definition CONEX_CreateConeProgram : program := new_program 0.

(** interfaces/conex.cc:259-285 after the null checks; [st] is
    [program.stats].  Dereferencing the null [stats] of a program that was never
    initialised, reading the never-assigned [num_iter], or reading
    [sqrt_inv_mu] beyond the buffer area is [UB].  [None]: the index was
    rejected and the output structure is left alone.  [Some i]: entry [i] was
    copied to the output.  The area's [initialized] flag is always set. *)
Definition GetIterationStats (st : option stats) (iter_num_circular : Z) : res (option nat) :=
  match st with
  | None => UB
  | Some s =>
      match ss_num_iter s with
      | None => UB
      | Some num =>
          let iter_num := if (iter_num_circular <? 0)%Z
                          then (Z.of_nat num + iter_num_circular)%Z
                          else iter_num_circular in
          if ((Z.of_nat num <=? iter_num) || (iter_num <? 0))%Z then Ok None
          else if (Z.to_nat iter_num <? ss_max_iter s)%nat then Ok (Some (Z.to_nat iter_num))
          else UB
      end
  end.
