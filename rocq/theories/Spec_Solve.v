(** Statement vocabulary for the solve loop. *)
From Coq Require Import List Arith ZArith Reals.
From Verif Require Import Base ProgramModel ApiModel Spec_Program SolveModel.
Import ListNotations.
Open Scope R_scope.

(** The statistics area has the size asked for by the statistics object
    (conex/workspace.h:83-86). *)
Definition sized {St} (p : program) (n : numeric St) : Prop :=
  match p_stats p with
  | Some ss => length (nm_area n) = (2 * ss_max_iter ss + 2)%nat
  | None => True
  end.

(** The solve re-creates the workspace (conex/cone_program.cc:79-80). *)
Definition reinitialises (p : program) (c : config) : Prop :=
  p_init p = false \/ initialization_mode c = 0%Z.

(** An object is usable for warm starts only if it has statistics. *)
Definition has_stats (p : program) : Prop := p_init p = true -> p_stats p <> None.

(** Cell [k] of the statistics area holds [x]. *)
Definition cell_is {St} (n : numeric St) (k : nat) (x : R) : Prop := nth_error (nm_area n) k = Some (Some x).

(** The lower limit of the centering parameter. *)
Definition floor_of (c : config) : R := sqrt (1 / (/ 10 ^ 15 + maximum_mu c)).

(** A client's use of one program object: calls that change the program, and
    solves that come back.  [CONEX_Maximize] is two cost calls and a solve. *)
Inductive session (B : backend) : program -> numeric (bk_state B) -> Prop :=
| Fresh m n : session B (new_program m) n
| Call p n k p' r : session B p n -> ~ is_solve k -> api_step p k = Ok (p', r) -> session B p' n
| Solved p n c r : session B p n -> Solve B p n c = Ok (Returned B r) -> session B (rt_prog B r) (rt_num B r).

(** The iteration limit fits the statistics area the solve will use. *)
Definition limit_fits (p : program) (c : config) : Prop :=
  reinitialises p c \/ exists s0, p_stats p = Some s0 /\ (max_iterations c <= Z.of_nat (ss_max_iter s0))%Z.

(** The solve gets as far as the main loop. *)
Definition starts (p : program) (c : config) : Prop :=
  (p_quadratic p = true -> enable_line_search c <> 0%Z /\ enable_rescaling c = 0%Z) /\ p_eqs p <> [].

(** Every constraint of the program is bound to the KKT solver. *)
Definition all_bound (p : program) : Prop :=
  p_kkt p = seq 0 (length (p_eqs p)) /\ p_solver p = Some (p_cliques p, p_duals p) /\
  length (p_workspaces p) = (2 * length (p_eqs p) + 2)%nat.
