(** Model of the program object: conex/constraint_manager.h,
    conex/cone_program.h (class [Program]), the cost functions of
    conex/cone_program.cc, [Initialize] (conex/cone_program.cc:78-112) and the
    coefficient update functions of the constraint classes.

    Simplifications: real numbers instead of doubles; the data of a constraint
    is stored as lists of rows or columns; [int] does not overflow; the number
    of variables is a natural number (a negative one makes Eigen fail in the
    constructor).  No proofs in this file. *)
From Coq Require Import List Arith ZArith Reals Bool.
From Verif Require Import Base LayoutModel SupernodeModel TriWorkspaceModel AssemblerModel.
Import ListNotations.
Open Scope R_scope.

(** ** Constraint data *)

(** A dense matrix as list of rows. *)
Definition matrix := list (list R).
Definition zeros (r c : nat) : matrix := repeat (repeat 0 c) r.
Definition mset (M : matrix) (r c : nat) (v : R) : matrix :=
  upd M r (upd (nth r M []) c v).

(** The constraint classes.  Only what the functions below read or write is
    kept. *)
Inductive cdata :=
(** conex/linear_constraint.h:14-84; [cols = constraint_matrix_.cols()]. *)
| CLinear (cols : nat) (A : matrix) (b : list R)
(** conex/soc_constraint.h:6-54 built by [SOCConstraint(int n)] (line 19);
    [A] is the list of columns of [constraint_matrix_], each of length [n+1];
    [c] is empty or has length [n+1]. *)
| CSoc (n : nat) (A : list (list R)) (c : list R)
(** conex/hermitian_psd.h:40-110; [hdim] is [H::HyperComplexDimension()]; a
    hypercomplex matrix is the list of its real components. *)
| CHerm (hdim rank : nat) (As : list (list matrix)) (C : list matrix)
(** conex/quadratic_cost.cc:18-70. *)
| CQuad (Q : matrix)
(** conex/dense_lmi_constraint.h:7-41; coefficients cannot be updated. *)
| CDenseLmi (n : nat) (As : list matrix) (C : matrix)
(** conex/quadratic_cone_constraint.h:8-78; [n] is [n_]. *)
| CQuadCone (n : nat) (Q A : matrix) (b : list R)
(** conex/equality_constraint.h:20-56. *)
| CEq (A : matrix) (b : list R).

(** [number of variables of the workspace]: conex/linear_constraint.h:37,
    soc_constraint.h:19, hermitian_psd.h:45-51, quadratic_cost.cc:68,
    psd_constraint.h:54, quadratic_cone_constraint.h:17,
    equality_constraint.h:47. *)
Definition ws_of (c : cdata) : ws :=
  match c with
  | CLinear cols A _ => WLinear (length A) cols
  | CSoc n _ _ => WSoc n
  | CHerm _ rank _ _ => WPsd rank
  | CQuad _ => WEmpty
  | CDenseLmi n _ _ => WPsd n
  | CQuadCone n _ _ _ => WSoc n
  | CEq _ _ => WEmpty
  end.

(** CONEX_SUCCESS and CONEX_FAILURE (conex/error_codes.h); [CONEX_DEMAND]
    returns 1 (conex/error_checking_macros.h:15-19). *)
Definition SUCCESS : Z := 0%Z.
Definition FAILURE : Z := 1%Z.

(** conex/soc_constraint.cc:305-312, [ConservativeResizeHelper]. *)
Definition resize_cols (A : list (list R)) (var rows : nat) : list (list R) :=
  A ++ repeat (repeat 0 rows) (var + 1 - length A).

(** The two writes of conex/hermitian_psd.cc:267-272 and 305-310. *)
Definition herm_set (M : matrix) (r c dim : nat) (val : R) : matrix :=
  let M1 := mset M r c val in
  if (dim =? 0)%nat then mset M1 c r val else mset M1 c r (- val).

(** [T::Zero(r, c)] of conex/jordan_matrix_algebra.cc: [hdim] zero matrices. *)
Definition hzero (hdim r : nat) : list matrix := repeat (zeros r r) hdim.

Definition Zlt_nat (z : Z) (n : nat) : bool := (z <? Z.of_nat n)%Z.
Definition Zneg (z : Z) : bool := (z <? 0)%Z.

(** The precondition common to conex/hermitian_psd.cc:251-255 and 288-292. *)
Definition herm_demands (hdim rank : nat) (val : R) (r c dim : Z) : bool :=
  Zlt_nat dim hdim && (Zlt_nat r rank && Zlt_nat c rank)
  && negb ((if Req_EM_T val 0 then false else true) && (r =? c)%Z && (0 <? dim)%Z).

(** [UpdateLinearOperator] of each class.
    CLinear: conex/linear_constraint.cc:207-216 (the variable index is not
    compared with the number of columns: the write is out of bounds).
    CSoc: conex/soc_constraint.cc:314-324.
    CHerm: conex/hermitian_psd.cc:248-274; the test [is_same<T, Octonions>] of
    line 258 compares with the constraint class and is always false.  The
    accesses [at(var)] and [at(dim)] throw on negative indices; the entry
    access [(r, c)] is unchecked.
    others: conex/constraint.h:13-17. *)
Definition UpdateLinearOperator (o : cdata) (val : R) (var r c dim : Z)
  : res (cdata * Z) :=
  match o with
  | CLinear cols A b =>
      if negb (dim =? 0)%Z then Ok (o, FAILURE)
      else if negb (c =? 0)%Z then Ok (o, FAILURE)
      else if negb (Zlt_nat r (length A)) then Ok (o, FAILURE)
      else if Zneg var || Zneg r then Ok (o, FAILURE)
      else if negb (Zlt_nat var cols) then UB
      else Ok (CLinear cols (mset A (Z.to_nat r) (Z.to_nat var) val) b, SUCCESS)
  | CSoc n A a =>
      if negb (dim =? 0)%Z then Ok (o, FAILURE)
      else if negb (c =? 0)%Z then Ok (o, FAILURE)
      else if negb (r <=? Z.of_nat n)%Z then Ok (o, FAILURE)
      else if Zneg var || Zneg r then Ok (o, FAILURE)
      else
        let A' := resize_cols A (Z.to_nat var) (n + 1) in
        Ok (CSoc n (mset A' (Z.to_nat var) (Z.to_nat r) val) a, SUCCESS)
  | CHerm hdim rank As C =>
      if negb (herm_demands hdim rank val r c dim) then Ok (o, FAILURE)
      else if Zneg var then Throw
      else
        let v := Z.to_nat var in
        let As' := As ++ repeat (hzero hdim rank) (v + 1 - length As) in
        if Zneg dim then Throw
        else if Zneg r || Zneg c then UB
        else
          let d := Z.to_nat dim in
          let M := nth v As' [] in
          let M' := upd M d (herm_set (nth d M []) (Z.to_nat r) (Z.to_nat c) d val) in
          Ok (CHerm hdim rank (upd As' v M') C, SUCCESS)
  | _ => Ok (o, FAILURE)
  end.

(** [UpdateAffineTerm] of each class.
    CLinear: conex/linear_constraint.cc:218-226.
    CSoc: conex/soc_constraint.cc:326-335.
    CHerm: conex/hermitian_psd.cc:285-313.
    CQuad: conex/quadratic_cost.cc:33-39 (no test for negative indices; only
    one entry is written).
    others: conex/constraint.h:19-22. *)
Definition UpdateAffineTerm (o : cdata) (val : R) (r c dim : Z) : res (cdata * Z) :=
  match o with
  | CLinear cols A b =>
      if negb (dim =? 0)%Z then Ok (o, FAILURE)
      else if negb (c =? 0)%Z then Ok (o, FAILURE)
      else if negb (Zlt_nat r (length A)) then Ok (o, FAILURE)
      else if Zneg r then Ok (o, FAILURE)
      else if negb (Zlt_nat r (length b)) then UB
      else Ok (CLinear cols A (upd b (Z.to_nat r) val), SUCCESS)
  | CSoc n A a =>
      if negb (dim =? 0)%Z then Ok (o, FAILURE)
      else if negb (c =? 0)%Z then Ok (o, FAILURE)
      else if negb (r <=? Z.of_nat n)%Z then Ok (o, FAILURE)
      else if Zneg r then Ok (o, FAILURE)
      else
        let a' := match a with [] => repeat 0 (n + 1) | _ => a end in
        Ok (CSoc n A (upd a' (Z.to_nat r) val), SUCCESS)
  | CHerm hdim rank As C =>
      if negb (herm_demands hdim rank val r c dim) then Ok (o, FAILURE)
      else
        let C0 := match C with [] => hzero hdim rank | _ => C end in
        if Zneg dim then Throw
        else if Zneg r || Zneg c then UB
        else
          let d := Z.to_nat dim in
          Ok (CHerm hdim rank As
                (upd C0 d (herm_set (nth d C0 []) (Z.to_nat r) (Z.to_nat c) d val)), SUCCESS)
  | CQuad Q =>
      if negb (dim =? 0)%Z then Ok (o, FAILURE)
      else if negb (Zlt_nat r (length Q) && Zlt_nat c (length (nth 0 Q []))) then Ok (o, FAILURE)
      else if Zneg r || Zneg c then UB
      else Ok (CQuad (mset Q (Z.to_nat r) (Z.to_nat c) val), SUCCESS)
  | _ => Ok (o, FAILURE)
  end.

(** ** Constraint manager and program *)

(** conex/constraint_manager.h:11-24; [y] is the count vector of length [N].  A
    negative index passes the test of line 15 and is an out-of-bounds write. *)
Fixpoint is_unique_loop (N : nat) (y : list nat) (x : list Z) : res bool :=
  match x with
  | [] => Ok true
  | xi :: t =>
      if (Z.of_nat N <=? xi)%Z then Ok false
      else if (xi <? 0)%Z then UB
      else
        let i := Z.to_nat xi in
        let k := S (nth i y 0%nat) in
        if (1 <? k)%nat then Ok false else is_unique_loop N (upd y i k) t
  end.
Definition IsUnique (N : nat) (x : list Z) : res bool :=
  is_unique_loop N (repeat 0%nat N) x.

(** conex/cone_program.h:47-57: the stored object and the [num_variables_] of
    its assembler. *)
Record container := mkCont { ct_data : cdata; ct_vars : nat }.

(** conex/cone_program.h:40-45. *)
Record status := mkStatus {
  st_solved : bool;
  st_num_iterations : nat;
  st_primal_infeasible : bool;
  st_dual_infeasible : bool
}.

(** [WorkspaceStats] (conex/workspace.h:73-117): the allocated number of
    iterations, and [num_iter] which has no initial value. *)
Record stats := mkStats { ss_max_iter : nat; ss_num_iter : option nat }.

(** The members of [Program] (conex/cone_program.h:223-242) with those of its
    [ConstraintManager] (conex/constraint_manager.h:97-104).
    [p_constraints]: the pointers [constraints_] as positions in [eqs] (a
    [std::list] never moves its elements).
    [p_workspaces]: the vector [workspaces]; [p_buffer]: size of the buffer.
    [p_kkt]: the vector [kkt] of bound assemblers, as positions in [eqs];
    [p_solver]: the arguments the KKT solver was built from.
    [p_sys]: [sys.m_]. *)
Record program := mkProg {
  p_n : nat;
  p_dual_start : nat;
  p_eqs : list container;
  p_cliques : list (list nat);
  p_duals : list (list nat);
  p_constraints : list nat;
  p_cost : list R;
  p_quadratic : bool;
  p_init : bool;
  p_workspaces : list ws;
  p_buffer : nat;
  p_stats : option stats;
  p_kkt : list nat;
  p_solver : option (list (list nat) * list (list nat));
  p_sys : nat;
  p_status : status
}.

Definition set_manager (p : program) n ds eqs cl du cons : program :=
  mkProg n ds eqs cl du cons (p_cost p) (p_quadratic p) (p_init p) (p_workspaces p)
         (p_buffer p) (p_stats p) (p_kkt p) (p_solver p) (p_sys p) (p_status p).
Definition set_cost (p : program) (c : list R) : program :=
  mkProg (p_n p) (p_dual_start p) (p_eqs p) (p_cliques p) (p_duals p) (p_constraints p)
         c (p_quadratic p) (p_init p) (p_workspaces p) (p_buffer p) (p_stats p) (p_kkt p)
         (p_solver p) (p_sys p) (p_status p).
Definition set_quadratic (p : program) : program :=
  mkProg (p_n p) (p_dual_start p) (p_eqs p) (p_cliques p) (p_duals p) (p_constraints p)
         (p_cost p) true (p_init p) (p_workspaces p) (p_buffer p) (p_stats p) (p_kkt p)
         (p_solver p) (p_sys p) (p_status p).
Definition set_status (p : program) (s : status) : program :=
  mkProg (p_n p) (p_dual_start p) (p_eqs p) (p_cliques p) (p_duals p) (p_constraints p)
         (p_cost p) (p_quadratic p) (p_init p) (p_workspaces p) (p_buffer p) (p_stats p)
         (p_kkt p) (p_solver p) (p_sys p) s.
Definition set_stats (p : program) (s : option stats) : program :=
  mkProg (p_n p) (p_dual_start p) (p_eqs p) (p_cliques p) (p_duals p) (p_constraints p)
         (p_cost p) (p_quadratic p) (p_init p) (p_workspaces p) (p_buffer p) s
         (p_kkt p) (p_solver p) (p_sys p) (p_status p).

(** conex/cone_program.h:111-114 with conex/constraint_manager.h:35-38. *)
Definition SetNumberOfVariables (p : program) (m : nat) : program :=
  set_cost (set_manager p m m (p_eqs p) (p_cliques p) (p_duals p) (p_constraints p))
           (repeat 0 m).

(** conex/cone_program.h:101-104 and the member initialisers 223-234.  The value
    of [status_.num_iterations] is indeterminate; zero stands for it. *)
Definition new_program (m : nat) : program :=
  SetNumberOfVariables
    (mkProg 0 0 [] [] [] [] [] false false [] 0 None [] None 0
            (mkStatus false 0 false false)) m.

(** conex/constraint_manager.h:42-48. *)
Definition SizeOfKKTSystem (p : program) : nat :=
  (p_n p + fold_left (fun s dv => s + length dv) (p_duals p) 0)%nat.

Definition NumberOfConstraints (p : program) : nat := length (p_eqs p).

(** conex/constraint_manager.h:60-69. *)
Definition manager_AddConstraint (p : program) (x : cdata) (variables : list Z)
  : res (program * Z) :=
  u <- IsUnique (p_n p) variables ;;
  if negb u then Ok (p, FAILURE)
  else Ok (set_manager p (p_n p) (p_dual_start p)
             (p_eqs p ++ [mkCont x (length variables)])
             (p_cliques p ++ [map Z.to_nat variables])
             (p_duals p ++ [[]])
             (p_constraints p), SUCCESS).

(** conex/constraint_manager.h:52-55 and 89-92. *)
Definition all_variables (p : program) : list Z := map Z.of_nat (seq 0 (p_n p)).

(** conex/constraint_manager.h:50-58: the result of the inner call is ignored. *)
Definition manager_AddConstraint_all (p : program) (x : cdata) : res (program * Z) :=
  '(p', _) <- manager_AddConstraint p x (all_variables p) ;;
  Ok (p', SUCCESS).

(** conex/constraint_manager.h:71-86; [m] is [x.SizeOfDualVariable()]
    (equality_constraint.h:25). *)
Definition manager_AddEquality (p : program) (A : matrix) (b : list R)
  (variables : list Z) : res (program * Z) :=
  u <- IsUnique (p_n p) variables ;;
  if negb u then Ok (p, FAILURE)
  else
    let m := length A in
    let du := seq (p_dual_start p) m in
    Ok (set_manager p (p_n p) (p_dual_start p + m)
          (p_eqs p ++ [mkCont (CEq A b) (m + length variables)])
          (p_cliques p ++ [map Z.to_nat variables ++ du])
          (p_duals p ++ [du])
          (p_constraints p), SUCCESS).

(** conex/constraint_manager.h:88-95. *)
Definition manager_AddEquality_all (p : program) (A : matrix) (b : list R)
  : res (program * Z) :=
  '(p', _) <- manager_AddEquality p A b (all_variables p) ;;
  Ok (p', SUCCESS).

(** conex/cone_program.h:196, 211. *)
Definition push_constraint (p : program) : program :=
  set_manager p (p_n p) (p_dual_start p) (p_eqs p) (p_cliques p) (p_duals p)
    (p_constraints p ++ [(length (p_eqs p) - 1)%nat]).

(** conex/cone_program.h:191-218.  [lvalue] tells whether the argument is an
    lvalue: then [T] is deduced as a reference type, and the test
    [is_same<T, EqualityConstraints>] is false even for an equality constraint.
    [variables = None]: the overload without a variable list. *)
Definition AddConstraint (p : program) (lvalue : bool) (x : cdata)
  (variables : option (list Z)) : res (program * Z) :=
  match x, lvalue with
  | CEq A b, false =>
      match variables with
      | Some v => manager_AddEquality p A b v
      | None => manager_AddEquality_all p A b
      end
  | _, _ =>
      '(p', result) <- match variables with
                       | Some v => manager_AddConstraint p x v
                       | None => manager_AddConstraint_all p x
                       end ;;
      if (result =? SUCCESS)%Z then Ok (push_constraint p', result) else Ok (p', result)
  end.

(** conex/cone_program.cc:226-231.  The returned C++ [bool] as a number: [true]
    both on success and on failure (CONEX_DEMAND returns 1). *)
Fixpoint vadd (a b : list R) : list R :=
  match a, b with
  | x :: a', y :: b' => (x + y) :: vadd a' b'
  | _, _ => []
  end.
Definition AddLinearCost (p : program) (b : list R) : program * Z :=
  if negb (p_n p =? length b)%nat then (p, 1%Z)
  else (set_cost p (vadd (p_cost p) b), 1%Z).

(** conex/cone_program.cc:233. *)
Definition ClearLinearCosts (p : program) : program :=
  set_cost p (map (fun _ => 0) (p_cost p)).

(** conex/cone_program.cc:554-560 with conex/quadratic_cost.cc:73-76: the result
    of [AddConstraint] is ignored. *)
Definition AddQuadraticCost (p : program) (Q : matrix) (vars : list Z)
  : res (program * Z) :=
  '(p', _) <- AddConstraint (set_quadratic p) false (CQuad Q) (Some vars) ;;
  Ok (p', 0%Z).

(** conex/cone_program.cc:562-570. *)
Definition AddQuadraticCost_all (p : program) (Q : matrix) : res (program * Z) :=
  if negb (length Q =? p_n p)%nat then Ok (p, 1%Z)
  else AddQuadraticCost p Q (all_variables p).

(** Replacing the data of one stored constraint. *)
Definition set_data (p : program) (i : nat) (x : cdata) : program :=
  match nth_error (p_eqs p) i with
  | Some c => set_manager p (p_n p) (p_dual_start p) (upd (p_eqs p) i (mkCont x (ct_vars c)))
                (p_cliques p) (p_duals p) (p_constraints p)
  | None => p
  end.

(** conex/cone_program.h:147-159: the list is walked until the counter equals
    [i]; no element matches a negative or too large [i]. *)
Definition UpdateLinearOperatorOfConstraint (p : program) (i : Z) (val : R)
  (var r c dim : Z) : res (program * Z) :=
  if Zneg i then Ok (p, FAILURE)
  else match nth_error (p_eqs p) (Z.to_nat i) with
       | None => Ok (p, FAILURE)
       | Some ct =>
           '(x, s) <- UpdateLinearOperator (ct_data ct) val var r c dim ;;
           Ok (set_data p (Z.to_nat i) x, s)
       end.

(** conex/cone_program.h:161-172. *)
Definition UpdateAffineTermOfConstraint (p : program) (i : Z) (val : R)
  (r c dim : Z) : res (program * Z) :=
  if Zneg i then Ok (p, FAILURE)
  else match nth_error (p_eqs p) (Z.to_nat i) with
       | None => Ok (p, FAILURE)
       | Some ct =>
           '(x, s) <- UpdateAffineTerm (ct_data ct) val r c dim ;;
           Ok (set_data p (Z.to_nat i) x, s)
       end.

(** [dual_variable_size] (conex/constraint.h:165-167): the map [W] is empty until
    the workspace is initialised, except for the second-order cones whose dummy
    [W] has [n + 1] entries from the start (conex/workspace_soc.h:8, 43-46).
    [bound]: the constraint existed at the last [InitializeWorkspace]. *)
Definition dual_variable_size (bound : bool) (c : cdata) : nat :=
  match c with
  | CLinear _ A _ => if bound then length A else 0
  | CSoc n _ _ | CQuadCone n _ _ _ => n + 1
  | CHerm _ n _ _ | CDenseLmi n _ _ => if bound then n * n else 0
  | CQuad _ | CEq _ _ => 0
  end%nat.

(** conex/cone_program.h:136-145: an invalid identifier yields 1, the value
    returned by CONEX_DEMAND. *)
Definition GetDualVariableSize (p : program) (i : Z) : Z :=
  if Zneg i then 1%Z
  else match nth_error (p_eqs p) (Z.to_nat i) with
       | None => 1%Z
       | Some ct =>
           Z.of_nat (dual_variable_size (Z.to_nat i <? length (p_kkt p))%nat (ct_data ct))
       end.

(** ** Initialisation of a solve *)

(** conex/cone_program.h:174-181. *)
Definition make_workspaces (eqs : list container) (max_iter kkt_size : nat) : list ws :=
  flat_map (fun c => [ws_of (ct_data c); WSchur (ct_vars c) false]) eqs
  ++ [WStats max_iter; WSchur kkt_size true].

(** conex/cone_program.h:182-188: the buffer only grows. *)
Definition InitializeWorkspace (p : program) (max_iter : nat) : program :=
  let m := SizeOfKKTSystem p in
  let l := make_workspaces (p_eqs p) max_iter m in
  mkProg (p_n p) (p_dual_start p) (p_eqs p) (p_cliques p) (p_duals p) (p_constraints p)
         (p_cost p) (p_quadratic p) true l
         (if (p_buffer p <? ws_total l)%nat then ws_total l else p_buffer p)
         (Some (mkStats max_iter None)) (p_kkt p) (p_solver p) m (p_status p).

(** conex/cone_program.cc:78-112.  [cold] is
    [initialization_mode == CONEX_INITIALIZATION_MODE_COLDSTART]; other modes
    re-initialise only a program that was never initialised.  The constructor of
    the KKT solver may throw (see [build]); [Bind] (conex/kkt_solver.cc) takes
    every constraint.  The numeric part, [SetIdentity] and the two scalings, is
    in SolveModel.v. *)
Definition Initialize (p : program) (cold : bool) (max_iter : nat) : res program :=
  if negb (p_init p) || cold then
    let p1 := InitializeWorkspace p max_iter in
    _ <- build (p_cliques p1) (p_duals p1) ;;
    Ok (mkProg (p_n p1) (p_dual_start p1) (p_eqs p1) (p_cliques p1) (p_duals p1)
               (p_constraints p1) (p_cost p1) (p_quadratic p1) (p_init p1)
               (p_workspaces p1) (p_buffer p1) (p_stats p1)
               (seq 0 (length (p_eqs p1)))
               (Some (p_cliques p1, p_duals p1)) (p_sys p1) (p_status p1))
  else Ok p.
