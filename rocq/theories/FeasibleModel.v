(** Model of [GetFeasibleObjective] and of handing its result to the solver. *)
From Coq Require Import List Arith ZArith Reals Bool.
From Verif Require Import Base SupernodeModel TriWorkspaceModel AssemblerModel KktModel ProgramModel SolveModel LinearModel ConcreteBackend.
Import ListNotations.
Open Scope R_scope.

(** conex/cone_program.cc:535-545.  The default options have mode 0, a cold start,
    and 25 iterations (conex/cone_program.h:19,32).  [Assemble] is the variant of
    conex/kkt_solver.cc:133-162; its blocks are computed as in [con_assemble].  The
    outputs have as many entries as the linear system.  [nf] only matters to later
    steps.  Returned are the program, its numeric state and the vector. *)
Definition GetFeasibleObjective (nf : environment) (p : program) (n : numeric cst)
  : res (program * numeric cst * list R) :=
  p2 <- Initialize p true 25 ;;
  let n2 := Initialize_numeric (conex 0 nf) p p2 true 25 n in
  let st := nm_bk n2 in
  with_solver p2 (fun duals d o bs =>
    q <- mapM (fun i => '(c, s) <- get_con p2 st i ;; con_schur c s) (seq 0 (length (p_eqs p2))) ;;
    let G := fun i => sc_G (snd (nth i q (SOther, mkSchur (fun _ _ => 0) (mkRhs [] [] 0 0)))) in
    '(aw, aq, ip) <- AssembleRhs d (p_cliques p2) (map (fun x => sc_rhs (snd x)) q) (SizeOfKKTSystem p2) (SizeOfKKTSystem p2) ;;
    Ok (p2,
        mkNum (mkCst (map fst q) (Assemble R 0 Rplus bs (d_order d) G (ct_mem st)) None (ct_sys st) (ct_draws st)) (nm_area n2),
        map (fun x => 1 / 2 * x) aw)).

(** conex/cone_program.cc:547-551, the part of the solve with an objective that
    stores it; the result of [AddLinearCost] is ignored. *)
Definition set_objective (p : program) (b : list R) : program :=
  fst (AddLinearCost (ClearLinearCosts p) (map Ropp b)).
