(** Calls of the C interface that solve, with the real operations of the
    constraints and the KKT solver; interfaces/conex.cc and
    conex/cone_program.cc.  No proofs in this file. *)
From Coq Require Import List ZArith Reals.
From Verif Require Import Base ProgramModel ApiModel SolveModel ConcreteBackend.

(** conex/cone_program.cc:547-552, the program that [Solve(b, prog, config, y)]
    hands to [Solve(prog, config, y)]; the results of the two calls are ignored. *)
Definition set_objective (p : program) (b : list R) : program :=
  fst (AddLinearCost (ClearLinearCosts p) (map Ropp b)).

(** interfaces/conex.cc:93-105.  [n]: numeric state of the program; the array [y]
    is part of the result.  Not modelled: [br] different from the length of [b]. *)
Definition CONEX_Maximize (env : environment) (p : program) (n : numeric cst) (b : list R) (c : api_config)
  : res (solve_result (conex (mode_of env (APIConvertSolverConfiguration c)) env)) :=
  ConexSolve env (set_objective p b) n (APIConvertSolverConfiguration c).
