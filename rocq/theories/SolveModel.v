(** Model of the solve loop: [Solve] (conex/cone_program.cc:235-533), the
    functions it calls (15-224) and the aggregates of conex/cone_program.h:59-97.

    The operations of the individual constraints and of the KKT solver are
    collected in a record [backend], so the theorems about the loop hold for
    whatever they compute.  ConcreteBackend.v gives the real ones for linear
    constraints, equality constraints and quadratic costs.

    Simplifications: real numbers instead of doubles; [int] does not overflow;
    printing is left out.  Vectors of unequal length in a vector operation are
    an out-of-bounds access: [UB].  Reading memory that was never written is
    [UB].  A value that leaves the reals is treated at the place where it can
    arise, see the comments.  No proofs in this file. *)
From Coq Require Import List Arith ZArith Reals Bool.
From Verif Require Import Base LayoutModel AssemblerModel DenseModel KktModel ProgramModel ApiModel DivergenceModel.
Import ListNotations.
Open Scope R_scope.

(** ** Vectors *)

(** Coefficientwise operation; both operands must have the same length. *)
Fixpoint zip_ (f : R -> R -> R) (a b : list R) : res (list R) :=
  match a, b with
  | [], [] => Ok []
  | x :: a', y :: b' => t <- zip_ f a' b' ;; Ok (f x y :: t)
  | _, _ => UB
  end.
Definition vplus := zip_ Rplus.
Definition vminus := zip_ Rminus.
Definition vscale (k : R) (a : list R) : list R := map (fun x => k * x) a.
Fixpoint vdot (a b : list R) : R :=
  match a, b with x :: a', y :: b' => x * y + vdot a' b' | _, _ => 0 end.
Definition vnorm (a : list R) : R := sqrt (vdot a a).

(** conex/cone_program.h:59-67; the access [x(i)] is unchecked. *)
Definition Vars (x : list R) (indices : list nat) : res (list R) := mapM (fun i => idx x i) indices.

(** ** Options and results of the constraint operations *)

(** conex/newton_step.h:24-31. *)
Record step_options := mkStep {
  op_affine : bool;
  op_inv_sqrt_mu : R;
  op_c_weight : R;
  op_e_weight : R;
  op_step_size : R
}.

(** conex/newton_step.h:38-44 (the members [primal] and [dual] are never read). *)
Record line_params := mkLine { ln_c0 : R; ln_c1 : R; ln_dinf : R }.

(** [std::numeric_limits<double>::max()] (conex/newton_step.h:15-16, 46-47). *)
Definition DBL_MAX : R := (2 - / 2 ^ 52) * 2 ^ 1023.

(** The state of all constraints and of the KKT solver, and the operations on
    it.  [i] is the position of a constraint in [eqs].
    [bk_initialize]: what [Initialize] (conex/cone_program.cc:78-112) does to the
    constraint workspaces and the solver when it re-initialises, before
    [SetIdentity].
    [bk_prepare]: result [(norminfd, normsqrd)] of one constraint.
    [bk_search]: [None] is failure, [Some (lower_bound, upper_bound)].
    [bk_spectrum]: [lambda_min, lambda_max, frobenius_norm_squared, trace].
    [bk_assemble]: [solver->Assemble()] and
    [AssembleSchurComplementResiduals(..., &sys)]; [bk_sys] is [sys].
    [bk_factor]: [solver->Factor()]; [bk_solve]: [solver->SolveInPlace];
    [bk_solve_once]: [solver->Solve], which makes no refinement.
    [bk_not_finite]: the number standing for the result of
    [ComputeMuFromDivergence] when that divides by zero.  The caller only tests
    its sign and clamps it, so an infinite value acts like a large one and a NaN
    like a negative one. *)
Record backend := mkBackend {
  bk_state : Type;
  bk_initialize : program -> bk_state -> bk_state;
  bk_rank : program -> nat -> nat;
  bk_identity : program -> bk_state -> nat -> bk_state;
  bk_prepare : program -> bk_state -> nat -> step_options -> list R -> res (bk_state * (R * R));
  bk_take : program -> bk_state -> nat -> step_options -> res bk_state;
  bk_search : program -> bk_state -> nat -> line_params -> list R -> list R
              -> res (bk_state * option (R * R));
  bk_spectrum : program -> bk_state -> nat -> list R -> R -> res (bk_state * (R * R * R * R));
  bk_assemble : program -> bk_state -> res bk_state;
  bk_sys : bk_state -> rhs;
  bk_factor : program -> bk_state -> res (bk_state * bool);
  bk_solve : program -> bk_state -> list R -> res (list R);
  bk_solve_once : program -> bk_state -> list R -> res (list R);
  bk_not_finite : program -> bk_state -> R
}.

(** conex/cone_program.cc:216-224. *)
Definition ApplyLimits (x lb ub : R) : R :=
  let x1 := if Rltb ub x then ub else x in
  if Rltb x1 lb then lb else x1.

(** conex/cone_program.cc:423-426.  A zero norm gives an infinite quotient, which
    is cut to 1. *)
Definition step_size (norminfd : R) : R :=
  if Req0 norminfd then 1
  else let s := 2 / (norminfd * norminfd) in if Rltb 1 s then 1 else s.

(** conex/cone_program.cc:466, the quotient with the values it can take. *)
Inductive xnum := XFin (r : R) | XInf | XNaN.
Definition quotient (a b : R) : xnum :=
  if Req0 b then (if Req0 a then XNaN else XInf) else XFin (a / b).
Definition xgt (x : xnum) (t : R) : bool :=
  match x with XFin r => Rltb t r | XInf => true | XNaN => false end.

(** Contents of the caller's array [primal_variable] after the call. *)
Inductive yout :=
| YUntouched
| YInfinite            (* conex/cone_program.cc:269 *)
| YIndeterminate       (* the top of the never-written [ydata] *)
| YVec (y : list R).

(** Ghost record of one completed iteration (not part of the program): the
    number [i], the limits and the centering parameter used, [d_inf], the step
    size and the flag [final_centering]. *)
Record entry := mkEntry {
  en_i : nat;
  en_min : R;
  en_max : R;
  en_ism : R;
  en_dinf : R;
  en_step : R;
  en_final : bool
}.

(** The numeric part of the program object: constraints with solver, and the
    doubles of the statistics area (conex/workspace.h:73-117): [max_iter] values
    [sqrt_inv_mu], [max_iter] values [norm_inf_d], [c_scaling], [b_scaling].
    [None]: never written. *)
Record numeric (St : Type) := mkNum { nm_bk : St; nm_area : list (option R) }.
Arguments mkNum {St}. Arguments nm_bk {St}. Arguments nm_area {St}.

(** conex/workspace.h:101-112. *)
Definition c_cell (max_iter : nat) : nat := (2 * max_iter)%nat.
Definition b_cell (max_iter : nat) : nat := (2 * max_iter + 1)%nat.
Definition get_cell (a : list (option R)) (k : nat) : res R :=
  x <- idx a k ;; match x with Some r => Ok r | None => UB end.

(** The local variables of [Solve] that live across iterations
    (conex/cone_program.cc:276-301). *)
Record lstate (St : Type) := mkL {
  l_num : numeric St;
  l_num_iter : option nat;         (* stats->num_iter *)
  l_y : option (list R);
  l_ism : R;                       (* newton_step_parameters.inv_sqrt_mu *)
  l_max : R;                       (* inv_sqrt_mu_max *)
  l_step : R;                      (* newton_step_parameters.step_size *)
  l_cx : R;
  l_by : R;
  l_kkt_error : xnum;
  l_initial_centering : bool;
  l_centering_steps : Z;
  l_aborted : bool;                (* warmstart_aborted *)
  l_log : list entry               (* ghost, latest first *)
}.
Arguments mkL {St}. Arguments l_num {St}. Arguments l_num_iter {St}. Arguments l_y {St}.
Arguments l_ism {St}. Arguments l_max {St}. Arguments l_step {St}. Arguments l_cx {St}.
Arguments l_by {St}. Arguments l_kkt_error {St}. Arguments l_initial_centering {St}.
Arguments l_centering_steps {St}. Arguments l_aborted {St}. Arguments l_log {St}.

(** How one iteration ends.  [VBreak s r]: leaves the loop with
    [max_iters_reached = r].  [VReturn s k]: leaves [Solve] returning [k].
    [VOverflow]: a statistics value is written behind the statistics area. *)
Inductive verdict (St : Type) :=
| VNext (s : lstate St)
| VBreak (s : lstate St) (reached : bool)
| VReturn (s : lstate St) (ret : Z)
| VOverflow (i : nat).
Arguments VNext {St}. Arguments VBreak {St}. Arguments VReturn {St}. Arguments VOverflow {St}.

Section Solve.
  Variable B : backend.
  Notation St := (bk_state B).

  (** conex/cone_program.cc:24-29 over [constraints_]. *)
  Definition SetIdentity (p : program) (st : St) : St :=
    fold_left (fun st i => bk_identity B p st i) (p_constraints p) st.

  (** conex/cone_program.h:92-97. *)
  Definition TakeStep (p : program) (st : St) (o : step_options) : res St :=
    foldM (fun st i => bk_take B p st i o) st (p_constraints p).

  (** conex/cone_program.cc:59-66. *)
  Definition Rank (p : program) : nat :=
    fold_left (fun r i => r + bk_rank B p i)%nat (p_constraints p) 0%nat.

  (** conex/cone_program.h:69-90: result [(norminfd, normsqrd)].  A linear
      constraint leaves the previous constraint's numbers in [info_i] in affine
      mode; their use there is not modelled as the caller ignores the result. *)
  Definition PrepareStep (p : program) (st : St) (o : step_options) (y : list R)
    : res (St * (R * R)) :=
    foldM (fun acc i =>
             let '(st, (norminfd, normsqrd)) := acc in
             clique <- at_ (p_cliques p) i ;;
             z <- Vars y clique ;;
             '(st', (ni, ns)) <- bk_prepare B p st i o z ;;
             Ok (st', ((if Rltb norminfd ni then ni else norminfd), normsqrd + ns)))
          (st, (-1, 0)) (seq 0 (NumberOfConstraints p)).

  (** conex/cone_program.cc:135-159: the loop over the constraints and the final
      test.  [None]: some constraint reported failure, returns -1. *)
  Fixpoint search_loop (p : program) (st : St) (params : line_params) (y0 y1 : list R)
    (es : list nat) (lower upper : R) : res (St * option (R * R)) :=
    match es with
    | [] => Ok (st, Some (lower, upper))
    | i :: t =>
        clique <- at_ (p_cliques p) i ;;
        z1 <- Vars y0 clique ;;
        z2 <- Vars y1 clique ;;
        '(st', r) <- bk_search B p st i params z1 z2 ;;
        match r with
        | None => Ok (st', None)
        | Some (li, ui) =>
            search_loop p st' params y0 y1 t
              (if Rltb lower li then li else lower)
              (if Rltb ui upper then ui else upper)
        end
    end.

  (** conex/cone_program.cc:118-160.  The vector left in [*y0] is overwritten by
      the caller. *)
  Definition ComputeMuFromLineSearch (p : program) (st : St) (dinf : R)
    (AQc : list R) (c_weight : R) (b AW : list R) : res (St * R) :=
    y0 <- bk_solve B p st (vscale (-2) AW) ;;
    r0 <- vplus AQc b ;;
    r1 <- vminus r0 (vscale 2 AW) ;;
    y1 <- bk_solve B p st r1 ;;
    '(st', r) <- search_loop p st (mkLine (c_weight * 0) (c_weight * 1) dinf) y0 y1
                   (seq 0 (NumberOfConstraints p)) (- DBL_MAX) DBL_MAX ;;
    match r with
    | None => Ok (st', -1)
    | Some (lower, upper) => Ok (st', if Rleb lower upper then upper else -1)
    end.

  (** conex/cone_program.cc:31-57. *)
  Definition GetWeightedSlackEigenvalues (p : program) (st : St) (y : list R) (c_weight : R)
    : res (St * spectrum) :=
    foldM (fun acc i =>
             let '(st, s) := acc in
             clique <- at_ (p_cliques p) i ;;
             z <- Vars y clique ;;
             '(st', (lmin, lmax, frob, tr)) <- bk_spectrum B p st i z c_weight ;;
             Ok (st', mkSpectrum (frobenius_norm_squared s + frob) (trace s + tr)
                        (if Rltb lmin (lambda_min s) then lmin else lambda_min s)
                        (if Rltb (lambda_max s) lmax then lmax else lambda_max s)
                        (rank s)))
          (st, mkSpectrum 0 0 30000 (-30000) 0) (seq 0 (NumberOfConstraints p)).

  (** conex/cone_program.cc:173-214. *)
  Definition ComputeMuFromDivergence (p : program) (c : config) (st : St) (AQc : list R)
    (c_weight : R) (b : list R) (rankK : nat) : res (St * R) :=
    r <- vminus AQc b ;;
    y <- bk_solve B p st r ;;
    '(st', s) <- GetWeightedSlackEigenvalues p st y c_weight ;;
    let s' := mkSpectrum (frobenius_norm_squared s) (trace s) (lambda_min s) (lambda_max s)
                         (INR rankK) in
    Ok (st', match mu_from_spectrum (divergence_upper_bound c) rankK s' with
             | Some k => k
             | None => bk_not_finite B p st'
             end).

  (** conex/cone_program.cc:374-398: the new value of
      [newton_step_parameters.inv_sqrt_mu] before clamping.  [None]: the
      CONEX_DEMAND of line 387 leaves [Solve] with the value 1. *)
  Definition update_mu (p : program) (c : config) (st : St) (b : list R) (bs cs : R)
    (rankK : nat) (ism : R) : res (option (St * R)) :=
    let s := bk_sys B st in
    '(st1, t1) <- (if negb (enable_line_search c =? 0)%Z then
                     '(st1, t) <- ComputeMuFromLineSearch p st (dinf_upper_bound c)
                                    (vscale cs (r_AQc s)) cs (vscale bs b) (r_AW s) ;;
                     Ok (st1, if Rltb t 0 then ism else t)
                   else Ok (st, -1)) ;;
    if Rltb t1 0 then
      if p_quadratic p then Ok None
      else
        '(st2, t2) <- ComputeMuFromDivergence p c st1 (vscale cs (r_AQc s)) cs (vscale bs b) rankK ;;
        Ok (Some (st2, if Rltb 0 t2 then t2 else ism * (5 / 10)))
    else Ok (Some (st1, if Rltb 0 t1 then t1 else ism * (5 / 10))).

  (** conex/cone_program.cc:406: outside the reals unless
      [1e-15 + maximum_mu > 0]; then [UB] stands for it. *)
  Definition lower_limit (c : config) : res R :=
    let d := / 10 ^ 15 + maximum_mu c in
    if Rltb 0 d then Ok (sqrt (1 / d)) else UB.

  (** conex/cone_program.cc:343-357: the two scalings and the limit
      [inv_sqrt_mu_max] at the start of the first iteration.  A zero
      [inv_sqrt_mu_max] divides by zero: [UB].  The product of the scalings is
      positive (SolveProofs.v). *)
  Definition rescale (c : config) (b AQc : list R) (max_iter : nat) (a : list (option R)) (ismax : R)
    : res (list (option R) * R) :=
    a1 <- (if (initialization_mode c =? 0)%Z then
             a' <- set_idx a (b_cell max_iter) (Some (1 / (1 + vnorm b))) ;;
             set_idx a' (c_cell max_iter) (Some (1 / (1 + vnorm AQc)))
           else Ok a) ;;
    bs <- get_cell a1 (b_cell max_iter) ;;
    cs <- get_cell a1 (c_cell max_iter) ;;
    if Req0 ismax then UB
    else
      let mu_target := 1 / (ismax * ismax) * (bs * cs) in
      Ok (a1, 1 / sqrt mu_target).

  (** conex/cone_program.cc:405-483: from the clamping of the centering parameter
      to the end of one iteration; [st] are the constraints and the solver
      after [update_mu], [ism] the centering parameter. *)
  Definition finish_iteration (p : program) (c : config) (max_iter : nat) (b : list R) (rankK i : nat)
    (final_centering : bool) (s : lstate St) (st : St) (a : list (option R)) (ismax ism0 : R)
    (centering_steps : Z) : res (verdict St) :=
    let warm := (initialization_mode c =? 1)%Z in
    let sys := bk_sys B st in
    min <- lower_limit c ;;
    let ism := ApplyLimits ism0 min ismax in
    bs <- get_cell a (b_cell max_iter) ;;
    cs <- get_cell a (c_cell max_iter) ;;
    r1 <- vplus (vscale bs b) (vscale cs (r_AQc sys)) ;;
    r2 <- vminus (vscale ism r1) (vscale 2 (r_AW sys)) ;;
    y <- bk_solve B p st r2 ;;
    '(st1, (norminfd, normsqrd)) <-
        PrepareStep p st (mkStep false ism (ism * cs) 1 (l_step s)) y ;;
    let step := step_size norminfd in
    let abort := (i =? 0)%nat && warm && Rleb (warmstart_abort_threshold c) norminfd in
    st2 <- (if abort then Ok (SetIdentity p st1)
            else TakeStep p st1 (mkStep false ism (ism * cs) 1 step)) ;;
    let d_2 := sqrt (Rabs normsqrd) in
    let d_inf := Rabs norminfd in
    let by_ := vdot b y / (ism * cs) in
    let cx := (2 * r_wc sys + vdot (r_AQc sys) y - ism * r_cQc sys * cs) / (ism * bs) in
    let mu := 1 / ism * (1 / ism) in
    let s_dot_x := mu * (INR rankK - d_2 * d_2) / (bs * cs) in
    let kkt := if p_quadratic p then l_kkt_error s
               else quotient (Rabs (cx - by_ - s_dot_x)) s_dot_x in
    if (length a <=? i)%nat then Ok (VOverflow i)
    else
      let a' := upd a i (Some ism) in
      let s' := mkL (mkNum st2 a') (Some (S i)) (Some y) ism ismax step cx by_ kkt
                    (l_initial_centering s) centering_steps abort
                    (mkEntry i min ismax ism d_inf step final_centering :: l_log s) in
      if (final_centering || Rleb ismax ism) && Rleb d_inf (final_centering_tolerance c)
      then Ok (VBreak s' false)
      else Ok (VNext s').

  (** One pass of the loop, conex/cone_program.cc:311-483.  [max_iter] is the
      [max_iter_] of the statistics object, [initial_steps] the value chosen on
      lines 298 and 306-309. *)
  Definition iteration (p : program) (c : config) (max_iter : nat) (initial_steps : Z)
    (b : list R) (rankK i : nat) (s : lstate St) : res (verdict St) :=
    let cold := (initialization_mode c =? 0)%Z in
    let warm := (initialization_mode c =? 1)%Z in
    let iz := Z.of_nat i in
    let initial_centering := if (initial_steps <=? iz)%Z then false else l_initial_centering s in
    let final_centering :=
      Rleb (l_max s) (l_ism s) || xgt (l_kkt_error s) (kkt_error_tolerance c)
      || (max_iterations c - final_centering_steps c <=? iz)%Z in
    let update := (i =? 0)%nat || negb (initial_centering || final_centering) || l_aborted s in
    if final_centering && (final_centering_steps c <=? l_centering_steps s)%Z then
      Ok (VBreak (mkL (l_num s) (l_num_iter s) (l_y s) (l_ism s) (l_max s) (l_step s) (l_cx s)
                      (l_by s) (l_kkt_error s) initial_centering (l_centering_steps s) false (l_log s))
                 (max_iterations c - 1 <=? iz)%Z)
    else
      st0 <- bk_assemble B p (nm_bk (l_num s)) ;;
      '(a0, ismax) <- (if (i <? 1)%nat && negb (enable_rescaling c =? 0)%Z
                       then rescale c b (r_AQc (bk_sys B st0)) max_iter (nm_area (l_num s)) (l_max s)
                       else Ok (nm_area (l_num s), l_max s)) ;;
      '(st1, ok) <- bk_factor B p st0 ;;
      if negb ok then
        if (i =? 0)%nat && warm then
          Ok (VNext (mkL (mkNum (SetIdentity p st1) a0) (l_num_iter s) (l_y s) (l_ism s) ismax
                         (l_step s) (l_cx s) (l_by s) (l_kkt_error s) initial_centering
                         (l_centering_steps s) true (l_log s)))
        else
          Ok (VReturn (mkL (mkNum st1 a0) (l_num_iter s) (l_y s) (l_ism s) ismax
                           (l_step s) (l_cx s) (l_by s) (l_kkt_error s) initial_centering
                           (l_centering_steps s) false (l_log s)) 0%Z)
      else
        let s1 := mkL (mkNum st1 a0) (l_num_iter s) (l_y s) (l_ism s) ismax (l_step s) (l_cx s)
                      (l_by s) (l_kkt_error s) initial_centering (l_centering_steps s) false
                      (l_log s) in
        if update then
          bs <- get_cell a0 (b_cell max_iter) ;;
          cs <- get_cell a0 (c_cell max_iter) ;;
          u <- update_mu p c st1 b bs cs rankK (l_ism s) ;;
          match u with
          | None => Ok (VReturn s1 1%Z)
          | Some (st2, ism) =>
              finish_iteration p c max_iter b rankK i final_centering s1 st2 a0 ismax ism
                (l_centering_steps s)
          end
        else
          finish_iteration p c max_iter b rankK i final_centering s1 st1 a0 ismax (l_ism s)
            (if initial_centering then l_centering_steps s else l_centering_steps s + 1)%Z.

  (** The loop, conex/cone_program.cc:311: [todo] iterations are left, [i] is the
      next one.  Running out of iterations leaves [max_iters_reached = true]
      (line 249). *)
  Fixpoint loop (p : program) (c : config) (max_iter : nat) (initial_steps : Z)
    (b : list R) (rankK : nat) (todo i : nat) (s : lstate St) : res (verdict St) :=
    match todo with
    | O => Ok (VBreak s true)
    | S todo' =>
        v <- iteration p c max_iter initial_steps b rankK i s ;;
        match v with
        | VNext s' => loop p c max_iter initial_steps b rankK todo' (S i) s'
        | _ => Ok v
        end
    end.

  (** What a call returns: the program object, its numeric part, the returned
      value and the caller's array; [rt_log] is ghost. *)
  Record returned := mkRet {
    rt_prog : program;
    rt_num : numeric St;
    rt_value : Z;
    rt_y : yout;
    rt_log : list entry
  }.
  Inductive solve_result := Returned (r : returned) | Overflow (i : nat).

  Definition set_num_iter (p : program) (k : option nat) : program :=
    match p_stats p with
    | Some s => set_stats p (Some (mkStats (ss_max_iter s) k))
    | None => p
    end.

  (** conex/cone_program.cc:488-496.  The reciprocal of a zero
      [inv_sqrt_mu] (no iteration completed) is infinite. *)
  Definition mu_exceeds (ism threshold : R) : bool :=
    if Req0 ism then true else Rltb threshold (1 / ism * (1 / ism)).

  (** conex/cone_program.cc:485-532. *)
  Definition finish (p : program) (c : config) (max_iter m : nat) (b : list R) (s : lstate St)
    (reached : bool) : res returned :=
    match l_num_iter s with
    | None => UB
    | Some k =>
        let ism := l_ism s in
        let a := nm_area (l_num s) in
        let infeasible := mu_exceeds ism (infeasibility_threshold c) in
        let primal := infeasible && Rleb (l_cx s * ism) (- (5 / 10)) in
        let dual := infeasible && Rleb (5 / 10) (l_by s * ism) in
        st <- (if negb (prepare_dual_variables c =? 0)%Z then
                 st0 <- bk_assemble B p (nm_bk (l_num s)) ;;
                 '(st1, _) <- bk_factor B p st0 ;;
                 bs <- get_cell a (b_cell max_iter) ;;
                 bres <- vminus (vscale bs (vscale ism b)) (r_AW (bk_sys B st1)) ;;
                 y2 <- bk_solve_once B p st1 bres ;;
                 '(st2, _) <- PrepareStep p st1 (mkStep true ism 0 0 (l_step s)) y2 ;;
                 Ok st2
               else Ok (nm_bk (l_num s))) ;;
        cs <- (if infeasible then Ok 1 else get_cell a (c_cell max_iter)) ;;
        let y := match l_y s with
                 | None => YIndeterminate
                 | Some y =>
                     let top := firstn m y in
                     YVec (if infeasible then top else map (fun x => x / ism / cs) top)
                 end in
        let solved := negb infeasible && negb reached in
        Ok (mkRet (set_status (set_num_iter p (Some k)) (mkStatus solved k primal dual))
                  (mkNum st a) (if solved then 1%Z else 0%Z) y (l_log s))
    end.

  (** conex/cone_program.cc:78-112, the numeric part: the statistics area is
      re-carved; its contents are whatever the buffer held. *)
  Definition Initialize_numeric (p0 p : program) (cold : bool) (max_iter : nat) (n : numeric St)
    : numeric St :=
    if negb (p_init p0) || cold then
      let a := repeat None (2 * max_iter + 2) in
      let st := bk_initialize B p (nm_bk n) in
      if cold then
        mkNum (SetIdentity p st)
              (upd (upd a (b_cell max_iter) (Some 1)) (c_cell max_iter) (Some 1))
      else mkNum st a
    else n.

  (** conex/cone_program.cc:235-533.  [ydata] (276) is not initialised;
      [cx = 1], [by = -1] (281-282). *)
  Definition Solve (p : program) (n : numeric St) (c : config) : res solve_result :=
    if negb (quadratic_precondition p c) then Ok (Returned (mkRet p n 1%Z YUntouched []))
    else
      let p1 := set_status p (mkStatus false (st_num_iterations (p_status p)) false false) in
      if (NumberOfConstraints p =? 0)%nat then Ok (Returned (mkRet p1 n 0%Z YInfinite []))
      else
        let cold := (initialization_mode c =? 0)%Z in
        p2 <- Initialize p1 cold (Z.to_nat (max_iterations c)) ;;
        let n2 := Initialize_numeric p1 p2 cold (Z.to_nat (max_iterations c)) n in
        match p_stats p2 with
        | None => UB
        | Some ss =>
            let bin := map Ropp (p_cost p2) in
            let m := length bin in
            let b := bin ++ repeat 0 (SizeOfKKTSystem p2 - m) in
            let initial_steps := if (initialization_mode c =? 0)%Z
                                 then initial_centering_steps_coldstart c
                                 else initial_centering_steps_warmstart c in
            let s0 := mkL n2 (ss_num_iter ss) None 0 (inv_sqrt_mu_max c) 1 1 (-1) (XFin 0)
                          true 0%Z false [] in
            v <- loop p2 c (ss_max_iter ss) initial_steps b (Rank p2)
                   (Z.to_nat (max_iterations c)) 0 s0 ;;
            match v with
            | VNext _ => UB   (* not a result of [loop] *)
            | VBreak s reached =>
                r <- finish p2 c (ss_max_iter ss) m b s reached ;;
                Ok (Returned r)
            | VReturn s k =>
                Ok (Returned (mkRet (set_num_iter p2 (l_num_iter s)) (l_num s) k YUntouched (l_log s)))
            | VOverflow i => Ok (Overflow i)
            end
        end.
End Solve.
