(** Properties C34-C36, C37 (linear constraints), C38, C48 and C53-C55: solves
    with the real operations of linear constraints, second-order cones, equality constraints and
    quadratic costs, and the real KKT solver. *)
From Coq Require Import List Arith ZArith Reals Bool Lia Lra.
From Verif Require Import Base BaseFacts LayoutModel SupernodeModel TriWorkspaceModel AssemblerModel KktModel ProgramModel ApiModel DivergenceModel
  SolveModel LinearModel ConcreteBackend Spec_Linear Spec_Assembly Spec_Program Spec_Solve Spec_Conex
  SolveProofs SolveFacts Prop_Solve ConexFacts ConexStep LineSearchFacts ConexKkt ConexBlocks ConexResult ConexGap ConexOutcome ConexDefinite ConexTotal
  ConexBuilt ToyBackend ConexRun SquareRun.
Import ListNotations.
Open Scope R_scope.

(** ** Example data *)

(** The centering parameter of these options is 1/100 throughout. *)
Lemma line_mu dual final limit tol : - / 10 ^ 15 < maximum_mu (line_config dual final limit tol) /\
  / 10 ^ 15 + maximum_mu (line_config dual final limit tol) <= infeasibility_threshold (line_config dual final limit tol).
Proof. unfold line_config, maximum_mu, infeasibility_threshold. split; lra. Qed.

Lemma square_example nf n : exists r y e, handed_back nf square_program n (line_config 0 1 5 1) r y e /\ length y = 2%nat /\
  exact_pivots square_program (nm_bk (rt_num _ r)).
Proof. apply square_handed; try reflexivity; try discriminate; apply line_mu. Qed.

Lemma line_costs b : on_costs (line_program b).
Proof. intros [|[|]] co Hc; try discriminate. injection Hc as <-. cbn. repeat constructor. Qed.
Lemma line_linear b : linear_only (line_program b).
Proof. split; [intros [|[|]] co Hc; try discriminate; injection Hc as <-; cbn; eauto|]. intros dv [<-|[]]. auto. Qed.
Lemma line_equalities b : sized_equalities (line_program b).
Proof. intros [|[|]] co A rhs Hc; try discriminate. injection Hc as <-. discriminate. Qed.
Lemma line_session nf b n : conex_session nf (line_program b) n.
Proof.
  apply (CCall nf toy_program n (PAddLinearCost [- b]) (line_program b) (mkReply 1 None)); [|cbn; tauto|reflexivity].
  apply (CCall nf (new_program 1) n (PAddConstraint false (CLinear 1 [[1]] [1]) None) toy_program (mkReply SUCCESS None)); [|cbn; tauto|reflexivity].
  apply CFresh.
Qed.
Lemma line_handed nf b n : exists r y e, handed_back nf (line_program b) n (line_config 0 1 5 1) r y e /\ length y = 1%nat.
Proof.
  apply cold_handed; auto using line_starts, line_well, line_consistent, line_listed, line_rectangular, line_factorable; try reflexivity; try apply line_mu.
  - cbn. lia.
  - discriminate.
Qed.

(** ** C34: equality constraints *)

(** Exact factorization: the returned point satisfies all equalities exactly,
    whatever the state of the iteration. *)
Theorem C34_equalities_hold : forall nf p n c r y e i co A b, handed_back nf p n c r y e ->
  rectangular p -> sized_equalities p -> on_costs p -> prepare_dual_variables c = 0%Z ->
  exact_pivots p (nm_bk (rt_num _ r)) -> nth_error (p_eqs p) i = Some co -> ct_data co = CEq A b ->
  equality_holds A b (nth i (p_cliques p) []) y.
Proof. exact outcome_equality. Qed.

(** Otherwise the residual is at most the regularisation times the multiplier
    over the scaling (no iterative refinement). *)
Theorem C34_residual_bound : forall nf p n c r y e bs cs i co A b, handed_back nf p n c r y e -> scalings (rt_prog _ r) (rt_num _ r) bs cs ->
  rectangular p -> sized_equalities p -> on_costs p -> prepare_dual_variables c = 0%Z -> (iterative_refinement_iterations c <= 0)%Z ->
  nth_error (p_eqs p) i = Some co -> ct_data co = CEq A b ->
  exists l, nth_error (ct_cons (nm_bk (rt_num _ r))) i = Some (SEq l) /\ length l = length A /\
    forall j, (j < length A)%nat ->
      Rabs (residual A b (nth i (p_cliques p) []) y j) <= 2 / 1000000000 * Rabs (nth j l 0) / (en_ism e * cs).
Proof. exact outcome_residual. Qed.

Example C34_example : forall nf n, exists r y e bs cs,
  handed_back nf square_program n (line_config 0 1 5 1) r y e /\ scalings (rt_prog _ r) (rt_num _ r) bs cs /\
  rectangular square_program /\ sized_equalities square_program /\ on_costs square_program /\
  exact_pivots square_program (nm_bk (rt_num _ r)) /\
  (exists co, nth_error (p_eqs square_program) 1 = Some co /\ ct_data co = CEq [[1]] [1 / 2]) /\ nth 0 y 0 = 1 / 2.
Proof.
  intros nf n. destruct (square_example nf n) as (r & y & e & H & L & HX).
  destruct (handed_scaled _ _ _ _ _ _ _ H) as (bs & cs & _ & _ & _ & HS).
  exists r, y, e, bs, cs. repeat (split; [eauto using square_rectangular, square_sized, square_costs; fail|]).
  split; [eexists; split; reflexivity|].
  pose proof (C34_equalities_hold _ _ _ _ _ _ _ 1 _ [[1]] [1 / 2] H square_rectangular square_sized square_costs eq_refl HX eq_refl eq_refl 0%nat ltac:(cbn; lia)) as HE.
  change (nth 1 (p_cliques square_program) []) with [0; 2]%nat in HE. unfold row_value in HE. cbn in HE. lra.
Qed.
Print Assumptions C34_equalities_hold.
Print Assumptions C34_residual_bound.

(** ** C35: inequalities *)

Theorem C35_inequalities_hold : forall nf p n c r y e t i co cols A b, starts p c -> sound_start p n c -> limit_fits p c ->
  ConexSolve nf p n c = Ok (Returned _ r) -> rt_y _ r = YVec y -> rt_log _ r = e :: t ->
  1 / (en_ism e * en_ism e) <= infeasibility_threshold c ->
  nth_error (p_eqs p) i = Some co -> ct_data co = CLinear cols A b -> has_cols cols A -> on_variables p i ->
  (en_dinf e <= 1 -> inequality_holds A b (nth i (p_cliques p) []) y) /\
  (en_dinf e < 1 -> forall k, (k < length A)%nat -> row_value (nth k A []) (nth i (p_cliques p) []) y < nth k b 0).
Proof.
  intros nf p n c r y e t i co cols A b H1 H2 H3 H4 H5 H6 H7 H8 H9 H10 H11.
  destruct (last_step nf p n c r y e t H1 H2 H3 H4 H5 H6 H7) as (p2 & st & st' & y0 & cs & D & F). eapply feasible_step; eauto.
Qed.

(** A reported success implies feasibility if the options rule out the exit after
    the final centering steps. *)
Theorem C35_solved_is_feasible : forall nf p n c r y i co cols A b, starts p c -> sound_start p n c -> limit_fits p c ->
  ConexSolve nf p n c = Ok (Returned _ r) -> rt_y _ r = YVec y -> st_solved (p_status (rt_prog _ r)) = true ->
  final_centering_tolerance c <= 1 -> (max_iterations c - 1 <= final_centering_steps c)%Z ->
  nth_error (p_eqs p) i = Some co -> ct_data co = CLinear cols A b -> has_cols cols A -> on_variables p i ->
  inequality_holds A b (nth i (p_cliques p) []) y.
Proof.
  intros nf p n c r y i co cols A b H1 H2 H3 H4 H5 H6 H7 H8 H9 H10 H11 H12.
  pose proof (C31_status (conex (mode_of nf c) nf) p n c r H1 H4) as (_ & _ & _ & HS & _). destruct (HS H6) as (e & t & E1 & E2 & E3 & [[E4 _]|E4]); [|lia].
  apply (C35_inequalities_hold nf p n c r y e t i co cols A b); auto. lra.
Qed.

(** With the exit after the final centering steps it does not. *)
Theorem C35_solved_infeasible_refuted : exists nf p n c r y A b, starts p c /\ sound_start p n c /\ limit_fits p c /\
  ConexSolve nf p n c = Ok (Returned _ r) /\ rt_y _ r = YVec y /\ rt_value _ r = 1%Z /\ st_solved (p_status (rt_prog _ r)) = true /\
  final_centering_tolerance c <= 1 /\
  (exists co, nth_error (p_eqs p) 0 = Some co /\ ct_data co = CLinear 1 A b) /\ has_cols 1 A /\ on_variables p 0 /\
  ~ inequality_holds A b (nth 0 (p_cliques p) []) y.
Proof.
  destruct (line_run silent 1 (mkNum (mkCst [] (fun _ => 0) None (mkRhs [] [] 0 0) 0) []) 0 0 3 1) as (r & E1 & E2 & E3 & E4 & E5 & E6 & EI & E7); [lia|left; lia|].
  exists silent, (line_program 1), (mkNum (mkCst [] (fun _ => 0) None (mkRhs [] [] 0 0) 0) []), (line_config 0 0 3 1), r, [(10 * (1 + 1) - 2) / 10], [[1]], [1].
  split; [apply line_starts|]. split; [left; right; reflexivity|]. split; [left; right; reflexivity|]. repeat (split; [assumption|]).
  split; [cbn; lra|]. split; [eexists; split; reflexivity|]. split; [repeat constructor|]. split; [repeat constructor|].
  intros H. specialize (H 0%nat ltac:(cbn; lia)). unfold row_value in H. cbn in H. lra.
Qed.

(** Maximise [y / 10] subject to [y <= 1]: the returned point is [0.9]. *)
Example C35_example : forall nf n, exists r e, let p := line_program (/ 10) in let c := line_config 0 4 5 1 in
  starts p c /\ sound_start p n c /\ limit_fits p c /\ ConexSolve nf p n c = Ok (Returned _ r) /\ rt_y _ r = YVec [9 / 10] /\
  rt_log _ r = [e] /\ en_dinf e <= 1 /\ 1 / (en_ism e * en_ism e) <= infeasibility_threshold c /\
  st_solved (p_status (rt_prog _ r)) = true /\ final_centering_tolerance c <= 1 /\ (max_iterations c - 1 <= final_centering_steps c)%Z /\
  (exists co, nth_error (p_eqs p) 0 = Some co /\ ct_data co = CLinear 1 [[1]] [1]) /\ has_cols 1 [[1]] /\ on_variables p 0.
Proof.
  intros nf n. assert (Rabs (10 * / 10 - 1) = 0) as E0 by (replace (10 * / 10 - 1) with 0 by field; apply Rabs_R0).
  destruct (line_run nf (/ 10) n 0 4 5 1) as (r & E1 & E2 & E3 & E4 & E5 & E6 & EI & E7); [lia|right; lra|].
  exists r. eexists. split; [apply line_starts|]. split; [left; right; reflexivity|]. split; [left; right; reflexivity|]. split; [exact E1|].
  split; [rewrite E5; repeat f_equal; field|]. split; [exact E6|]. cbn [en_dinf en_ism infeasibility_threshold line_config final_centering_tolerance max_iterations final_centering_steps].
  split; [lra|]. split; [lra|]. split; [exact E3|]. split; [lra|]. split; [lia|]. split; [eexists; split; reflexivity|]. split; repeat constructor.
Qed.
Print Assumptions C35_inequalities_hold.
Print Assumptions C35_solved_is_feasible.
Print Assumptions C35_solved_infeasible_refuted.

(** ** C36: dual variables *)

(** [gradient p X [] 0] is [sum_i A_i^T x_i]; the problem is to maximise
    [- p_cost . y].  After reported primal infeasibility the equation holds up to
    a positive factor.  The reported sizes are the lengths of the dual variables. *)
Theorem C36_dual_equation : forall nf p n c r y, starts p c -> sound_start p n c -> limit_fits p c -> well_built p -> up_to_date p c ->
  rectangular p -> linear_only p -> prepare_dual_variables c <> 0%Z ->
  ConexSolve nf p n c = Ok (Returned _ r) -> rt_y _ r = YVec y ->
  exists X k, 0 < k /\ (st_primal_infeasible (p_status (rt_prog _ r)) = false -> k = 1) /\
    (forall i, (i < length (p_eqs p))%nat -> GetDualVariable (rt_prog _ r) (rt_num _ r) i = Ok (X i) /\
       (reinitialises p c -> GetDualVariableSize (rt_prog _ r) (Z.of_nat i) = Z.of_nat (length (X i)))) /\
    forall u, (u < SizeOfKKTSystem p)%nat -> gradient p X [] 0 u = k * - nth u (p_cost p) 0.
Proof. exact dual_equation. Qed.

(** The dual variable of [maximise b y] subject to [y <= 1] is [b], whatever the
    sign of [b]: for negative [b] a problem without optimum is reported as solved,
    with a negative dual variable. *)
Example C36_example : forall nf n b, exists r y, let p := line_program b in let c := line_config 1 0 3 1 in
  starts p c /\ sound_start p n c /\ limit_fits p c /\ well_built p /\ up_to_date p c /\ rectangular p /\ linear_only p /\
  prepare_dual_variables c <> 0%Z /\ ConexSolve nf p n c = Ok (Returned _ r) /\ rt_y _ r = YVec y /\
  st_solved (p_status (rt_prog _ r)) = true /\ GetDualVariable (rt_prog _ r) (rt_num _ r) 0 = Ok [b].
Proof.
  intros nf n b. destruct (line_run nf b n 1 0 3 1) as (r & E1 & E2 & E3 & E4 & E5 & E6 & EI & E7); [lia|left; lia|].
  exists r. eexists. split; [apply line_starts|]. split; [left; right; reflexivity|]. split; [left; right; reflexivity|].
  split; [apply line_well|]. split; [left; right; reflexivity|]. split; [apply line_rectangular|]. split; [apply line_linear|].
  split; [discriminate|]. split; [exact E1|]. split; [exact E5|]. split; [exact E3|]. apply E7. discriminate.
Qed.
Print Assumptions C36_dual_equation.

(** ** C37: scaling points stay in the interior (linear constraints) *)

Theorem C37_linear_interior : forall nf p n, conex_session nf p n -> p_init p = true -> interior (nm_bk n) /\ stats_positive n.
Proof. exact session_interior. Qed.

(** One round, for arbitrary directions and step sizes. *)
Theorem C37_linear_step : forall cols A b w o y w1 n o' w2 W, lw_W w = Some W -> Forall (fun x => 0 < x) W -> op_affine o = false -> op_affine o' = false ->
  linear_prepare cols A b w o y = Ok (w1, n) -> linear_take w1 o' = Ok w2 ->
  exists W', lw_W w2 = Some W' /\ length W' = length W /\ Forall (fun x => 0 < x) W'.
Proof.
  intros cols A b w o y w1 [n q] o' w2 W HW HP H1 H2 E1 E2.
  destruct (linear_prepare_ok _ _ _ _ _ _ _ _ _ H1 E1) as (W0 & d & P1 & P2 & _). assert (W0 = W) as -> by congruence.
  destruct (linear_take_ok _ _ _ H2 E2) as (W1 & d1 & W' & T1 & T2 & T3 & T4 & T5 & T6). assert (W1 = W) as -> by congruence.
  exists W'. split; auto. split; auto. rewrite Forall_forall in *. intros x Hx. apply (In_nth _ _ 0) in Hx as (k & Hk & <-).
  rewrite T6 by lia. apply Rmult_lt_0_compat; [apply HP, nth_In; lia|apply exp_pos].
Qed.

(** Preparing dual variables leaves the interior. *)
Theorem C37_prepared_duals_refuted : exists nf p n c r, conex_session nf p n /\ starts p c /\ prepare_dual_variables c <> 0%Z /\
  ConexSolve nf p n c = Ok (Returned _ r) /\ rt_value _ r = 1%Z /\ ~ interior (nm_bk (rt_num _ r)).
Proof.
  set (n := mkNum (mkCst [] (fun _ => 0) None (mkRhs [] [] 0 0) 0) []).
  destruct (line_run silent (-1) n 1 0 3 1) as (r & E1 & E2 & E3 & E4 & E5 & E6 & EI & E7); [lia|left; lia|].
  exists silent, (line_program (-1)), n, (line_config 1 0 3 1), r. split; [apply line_session|]. split; [apply line_starts|]. split; [discriminate|].
  split; [exact E1|]. split; [exact E2|]. intros H. destruct (E7 ltac:(discriminate)) as (_ & w & Hw & HW). specialize (H _ _ Hw _ HW).
  inversion H. lra.
Qed.

Example C37_example : forall nf (n : numeric cst), exists r, conex_session nf (rt_prog (conex 0 nf) r) (rt_num _ r) /\ p_init (rt_prog _ r) = true.
Proof.
  intros nf n. destruct (line_run nf 1 n 0 0 3 1) as (r & E1 & E2 & E3 & E4 & E5 & E6 & EI & E7); [lia|left; lia|].
  exists r. split; [exact (CSolved nf _ _ (line_config 0 0 3 1) _ (line_session nf 1 n) eq_refl E1)|exact EI].
Qed.
Example C37_step_example : exists w1 n w2, let w := mkLin (Some [1; 2]) None None in let o := mkStep false 1 1 1 (/ 2) in
  Forall (fun x => 0 < x) [1; 2] /\ linear_prepare 1 [[1]; [- 1]] [1; 1] w o [3] = Ok (w1, n) /\ linear_take w1 o = Ok w2.
Proof.
  do 3 eexists. split; [repeat constructor; lra|]. split; [reflexivity|]. unfold linear_take. cbn [op_affine op_step_size]. destruct (Req_EM_T (/ 2) 1); [lra|reflexivity].
Qed.
Print Assumptions C37_linear_interior.
Print Assumptions C37_linear_step.
Print Assumptions C37_prepared_duals_refuted.

(** ** C38: line search *)

(** One linear constraint: the returned interval is the set of admissible
    interpolations; no interval is returned exactly if there is none. *)
Theorem C38_interval : forall d0 delta bound r, 0 <= bound -> d0 <> [] ->
  (forall k, (k < length d0)%nat -> ~ (nth k delta 0 = 0 /\ Rabs (nth k d0 0) = bound)) ->
  FindMinimumMu d0 delta bound = Ok r ->
  forall t, (forall k, (k < length d0)%nat -> Rabs (nth k d0 0 + t * nth k delta 0) <= bound) <->
            match r with Some (l, u) => ele l (Fin t) /\ ele (Fin t) u | None => False end.
Proof. intros d0 delta bound r H1 H2 H3 H4. destruct (FindMinimumMu_ok d0 delta bound r H1 H3 H2 H4) as (_ & _ & H). exact H. Qed.

(** A first component that is constant and exactly at the bound makes the upper
    end NaN; later components do not replace it and the caller then ignores it:
    inadmissible interpolations are accepted. *)
Theorem C38_tie_refuted : exists d0 delta bound l u t, 0 <= bound /\ d0 <> [] /\ length delta = length d0 /\
  FindMinimumMu d0 delta bound = Ok (Some (l, u)) /\ lower_number l <= t <= upper_number u /\
  ~ (forall k, (k < length d0)%nat -> Rabs (nth k d0 0 + t * nth k delta 0) <= bound).
Proof.
  exists [1; 0], [0; 1], 1, (Fin (-1)), NaN, 2. split; [lra|]. split; [discriminate|]. split; [reflexivity|]. split; [|split].
  - unfold FindMinimumMu. cbn [FindMinimumMu_loop]. unfold search_step, ediv.
    destruct (Req_EM_T 0 0); [|lra]. destruct (Req_EM_T 1 0); [lra|].
    destruct (Rlt_dec 0 (1 - 1)); [lra|]. destruct (Rlt_dec (1 - 1) 0); [lra|]. destruct (Rlt_dec 0 (- (1) - 1)); [lra|]. destruct (Rlt_dec (- (1) - 1) 0); [|lra].
    cbn [elt]. destruct (Rltb_spec ((1 - 0) / 1) (((- (1)) - 0) / 1)) as [H|H]; [lra|]. cbn [orb elt bind]. refine (f_equal (fun x => Ok (Some (Fin x, NaN))) _). lra.
  - cbn. pose proof DBL_MAX_big. lra.
  - intros H. specialize (H 1%nat ltac:(cbn; lia)). cbn in H. rewrite Rabs_pos_eq in H by lra. lra.
Qed.

(** All constraints: the step is the largest admissible interpolation between
    [-DBL_MAX] and [DBL_MAX]; [-1] is returned if there is none. *)
Theorem C38_largest_step : forall iters nf p st bound AQc cs b AW st' v, 0 <= bound -> rectangular p -> no_cones p ->
  length (ct_cons st) = length (p_eqs p) ->
  ComputeMuFromLineSearch (conex iters nf) p st bound AQc cs b AW = Ok (st', v) ->
  exists y0 y1 r0 r1, con_solve iters p st (vscale (-2) AW) = Ok y0 /\
    vplus AQc b = Ok r0 /\ vminus r0 (vscale 2 AW) = Ok r1 /\ con_solve iters p st r1 = Ok y1 /\
    (no_tie p st y0 y1 0 cs bound ->
     (v = -1 /\ (forall t, - DBL_MAX <= t <= DBL_MAX -> ~ within p st y0 y1 0 cs bound t)) \/
     (- DBL_MAX <= v <= DBL_MAX /\ within p st y0 y1 0 cs bound v /\
      forall t, - DBL_MAX <= t <= DBL_MAX -> within p st y0 y1 0 cs bound t -> t <= v)).
Proof. exact line_search_ok. Qed.

Example C38_example : exists d0 delta, d0 <> [] /\
  (forall k, (k < length d0)%nat -> ~ (nth k delta 0 = 0 /\ Rabs (nth k d0 0) = 1)) /\
  FindMinimumMu d0 delta 1 = Ok (Some (Fin (- / 2), Fin (1 / 2))).
Proof.
  exists [0; 0], [1; 2]. split; [discriminate|]. split; [intros [|[|k]] Hk [H _]; cbn in *; lra || lia|].
  unfold FindMinimumMu. cbn [FindMinimumMu_loop]. unfold search_step, ediv.
  destruct (Req_EM_T 1 0); [lra|]. destruct (Req_EM_T 2 0); [lra|]. cbn [elt].
  destruct (Rltb_spec ((1 - 0) / 1) ((- (1) - 0) / 1)); [lra|]. rewrite !orb_true_r. cbn [elt].
  destruct (Rltb_spec ((1 - 0) / 2) ((- (1) - 0) / 2)); [lra|]. cbn [elt]. rewrite !orb_false_r.
  destruct (Rltb_spec ((- (1) - 0) / 1) ((- (1) - 0) / 2)); [|lra]. destruct (Rltb_spec ((1 - 0) / 2) ((1 - 0) / 1)); [|lra].
  cbn [bind elt]. destruct (Rltb_spec ((1 - 0) / 2) ((- (1) - 0) / 2)); [lra|]. repeat f_equal; lra.
Qed.
(** The cold-started first iteration of [maximise y / 2] subject to [y <= 1]. *)
Example C38_step_example : forall nf, exists p st st' v, rectangular p /\ no_cones p /\ length (ct_cons st) = length (p_eqs p) /\
  ComputeMuFromLineSearch (conex 0 nf) p st 1 (r_AQc (ct_sys st)) 1 [1 / 2] (r_AW (ct_sys st)) = Ok (st', v) /\
  (exists y0 y1, con_solve 0 p st [-2] = Ok y0 /\ con_solve 0 p st [-1 / 2] = Ok y1 /\ no_tie p st y0 y1 0 1 1) /\ v = 4.
Proof.
  intros nf. set (b := 1 / 2).
  destruct (line_system b 1 (mkCst (line_state 1 None None) (fun _ => 0) None (mkRhs [] [] 0 0) 0) 1 None None ltac:(lra) eq_refl)
    as (st0 & st & _ & _ & (t1 & Hst) & HS & _ & Hsol).
  destruct (ready_fields b 1) as (F1 & F2 & F3 & F4 & F5 & F6 & F7).
  assert (con_solve 0 (line_ready b 1) st [-2] = Ok [-2]) as Y0. { rewrite Hsol by auto. do 2 f_equal. field. }
  assert (con_solve 0 (line_ready b 1) st [-1 / 2] = Ok [-1 / 2]) as Y1. { rewrite Hsol by auto. do 2 f_equal. field. }
  exists (line_ready b 1), st. eexists _, _. split; [unfold rectangular; rewrite F1; apply line_rectangular|].
  split; [unfold no_cones; rewrite F1; intros [|[|i]] co Hc; try discriminate; injection Hc as <-; split; discriminate|]. split; [rewrite F1, Hst; reflexivity|].
  split; [|split].
  - unfold ComputeMuFromLineSearch. rewrite HS. cbn [r_AW r_AQc vscale map vplus vminus zip_ bind bk_solve conex].
    replace (-2 * 1) with (-2) by ring. rewrite Y0. cbn [bind]. replace (1 * 1 + b - 2 * 1) with (-1 / 2) by (unfold b; field). rewrite Y1. cbn [bind].
    unfold NumberOfConstraints. rewrite F1. change (seq 0 (length (p_eqs (line_program b)))) with [0%nat]. cbn [search_loop]. rewrite F2.
    cbn [at_ nth_error bind Vars mapM idx bk_search conex]. unfold con_search, get_con. rewrite F1, Hst. cbn [bind nth_error p_eqs line_program toy_program line_state].
    cbn -[FindMinimumMu Rleb DBL_MAX].
    unfold FindMinimumMu. cbn [FindMinimumMu_loop]. unfold search_step, ediv.
    match goal with |- context [Req_EM_T ?x 0] => replace x with (1 / 2) by (unfold b; field) end. destruct (Req_EM_T (1 / 2) 0); [lra|].
    match goal with |- context [elt (Fin ?x) (Fin ?y)] => replace x with 4 by field; replace y with 0 by field end.
    cbn [elt]. destruct (Rltb_spec 4 0); [lra|]. rewrite !orb_true_r. cbn [bind elt]. destruct (Rltb_spec 4 0); [lra|]. cbn [lower_number upper_number].
    pose proof DBL_MAX_big. destruct (Rltb_spec (- DBL_MAX) 0); [|lra]. destruct (Rltb_spec 4 DBL_MAX); [|lra].
    cbn [bind]. destruct (Rleb_spec 0 4); [|lra]. reflexivity.
  - exists [-2], [-1 / 2]. split; auto. split; auto. intros [|[|i]] co cols A rhs w W k Hc Hd Hs HW Hk; rewrite F1 in Hc; try discriminate.
    injection Hc as <-. injection Hd as <- <- <-. rewrite Hst in Hs. injection Hs as <-. injection HW as <-. destruct k; [|cbn in Hk; lia].
    rewrite F2. unfold direction, row_value. cbn. lra.
  - reflexivity.
Qed.
Print Assumptions C38_interval.
Print Assumptions C38_tie_refuted.
Print Assumptions C38_largest_step.

(** ** C48: complementarity *)

(** [X] are the dual variables of the last iteration, [D] the components of its
    direction: slack times dual is [mu (1 - d^2)] for every row, and the gap
    between the objectives is [mu (n - |d|^2)] (over the scalings). *)
Theorem C48_complementarity : forall nf p n c r y e bs cs, handed_back nf p n c r y e -> scalings (rt_prog _ r) (rt_num _ r) bs cs ->
  rectangular p -> on_costs p -> linear_only p ->
  exists X D,
    (forall u, (u < SizeOfKKTSystem p)%nat -> gradient p X [] 0 u = - nth u (p_cost p) 0) /\
    (forall i co cols A b, nth_error (p_eqs p) i = Some co -> ct_data co = CLinear cols A b ->
      length (X i) = length A /\ length (nth i D []) = length A /\
      forall k, (k < length A)%nat ->
        let d := nth k (nth i D []) 0 in
        Rabs d <= en_dinf e /\
        (exists w, 0 < w /\ nth k (X i) 0 = w * (1 + d)) /\
        slack_of A b (nth i (p_cliques p) []) y k * nth k (X i) 0 = 1 / (en_ism e * en_ism e) * (1 - d * d) / (bs * cs)) /\
    length D = length (p_eqs p) /\
    linear_cost p y + dual_value p X = 1 / (en_ism e * en_ism e) * (inequalities p - total (fun d => vdot d d) D) / (bs * cs).
Proof. exact outcome_gap. Qed.

Example C48_example : forall nf n b, exists r y e bs cs, handed_back nf (line_program b) n (line_config 0 1 5 1) r y e /\
  scalings (rt_prog _ r) (rt_num _ r) bs cs /\ rectangular (line_program b) /\ on_costs (line_program b) /\ linear_only (line_program b).
Proof.
  intros nf n b. destruct (line_handed nf b n) as (r & y & e & H & _). destruct (handed_scaled _ _ _ _ _ _ _ H) as (bs & cs & _ & _ & _ & HS).
  exists r, y, e, bs, cs. auto using line_rectangular, line_costs, line_linear.
Qed.
Print Assumptions C48_complementarity.

(** ** C53: programs built by calls *)

Theorem C53_listed : forall n ks p rs, api_run (new_program n) ks = Ok (p, rs) -> listed p.
Proof. exact built_listed. Qed.

Theorem C53_well_built : forall n ks p rs, ((0 < n)%nat \/ Forall (fun k => ~ sets_variables k) ks) -> api_run (new_program n) ks = Ok (p, rs) ->
  nth 0 (p_cliques p) [] <> [] -> (forall v, (v < n)%nat -> covered (p_cliques p) v) ->
  (forall d o bs, build (p_cliques p) (p_duals p) = Ok (d, o, bs) -> forall b, In b bs -> direct_update b = true -> ~ In (-1)%Z (b_sn b)) ->
  well_built p.
Proof. exact built_well. Qed.

Example C53_example : forall b, api_run (new_program 1) [PAddConstraint false (CLinear 1 [[1]] [1]) None; PAddLinearCost [- b]] =
    Ok (line_program b, [mkReply SUCCESS None; mkReply 1 None]) /\ nth 0 (p_cliques (line_program b)) [] <> [] /\
  (forall v, (v < 1)%nat -> covered (p_cliques (line_program b)) v) /\
  (forall d o bs, build (p_cliques (line_program b)) (p_duals (line_program b)) = Ok (d, o, bs) -> forall k, In k bs -> direct_update k = true -> ~ In (-1)%Z (b_sn k)).
Proof.
  intros b. split; [reflexivity|]. split; [discriminate|]. split; [intros [|v] H; [exists [0%nat]; cbn; auto|lia]|].
  apply (wb_direct _ (line_well b)).
Qed.
Print Assumptions C53_listed.
Print Assumptions C53_well_built.

(** ** C54: suboptimality *)

(** The objective value of the returned point exceeds that of any feasible point by
    at most [mu] times the number of inequalities (over the scalings). *)
Theorem C54_suboptimality : forall nf p n c r y e bs cs z, handed_back nf p n c r y e -> scalings (rt_prog _ r) (rt_num _ r) bs cs ->
  rectangular p -> sized_equalities p -> on_costs p -> convex p -> prepare_dual_variables c = 0%Z ->
  exact_pivots p (nm_bk (rt_num _ r)) -> en_dinf e <= 1 -> no_matrices p -> feasible p z ->
  objective p (cs / bs) y <= objective p (cs / bs) z + inequalities p * (1 / (en_ism e * en_ism e)) / (bs * cs).
Proof. exact outcome_suboptimal. Qed.

(** Cold start without rescaling: no scalings. *)
Theorem C54_suboptimality_unscaled : forall nf p n c r y e z, handed_back nf p n c r y e ->
  initialization_mode c = 0%Z -> enable_rescaling c = 0%Z ->
  rectangular p -> sized_equalities p -> on_costs p -> convex p -> prepare_dual_variables c = 0%Z ->
  exact_pivots p (nm_bk (rt_num _ r)) -> en_dinf e <= 1 -> no_matrices p -> feasible p z ->
  objective p 1 y <= objective p 1 z + inequalities p * (1 / (en_ism e * en_ism e)).
Proof.
  intros nf p n c r y e z H H1 H2 H3 H4 H5 H6 H7 H8 H9 HN H10. destruct (handed_scaled _ _ _ _ _ _ _ H) as (bs & cs & _ & _ & _ & HS).
  destruct (unit_scalings _ _ _ _ _ _ _ _ _ H H1 H2 HS) as [-> ->].
  pose proof (outcome_suboptimal _ _ _ _ _ _ _ _ _ z H HS H3 H4 H5 H6 H7 H8 H9 HN H10) as HO.
  replace (1 / 1) with 1 in HO by lra. replace (inequalities p * (1 / (en_ism e * en_ism e)) / (1 * 1)) with (inequalities p * (1 / (en_ism e * en_ism e))) in HO by lra. exact HO.
Qed.
(** Maximise [y / 10] subject to [y <= 1], compared with the optimum 1. *)
Example C54_example : forall nf n, exists r e, let p := line_program (/ 10) in let c := line_config 0 4 5 1 in
  handed_back nf p n c r [9 / 10] e /\ (exists bs cs, scalings (rt_prog _ r) (rt_num _ r) bs cs) /\
  initialization_mode c = 0%Z /\ enable_rescaling c = 0%Z /\ rectangular p /\ sized_equalities p /\ on_costs p /\ convex p /\
  prepare_dual_variables c = 0%Z /\ exact_pivots p (nm_bk (rt_num _ r)) /\ en_dinf e <= 1 /\ no_matrices p /\ feasible p [1].
Proof.
  intros nf n. assert (Rabs (10 * / 10 - 1) = 0) as E0 by (replace (10 * / 10 - 1) with 0 by field; apply Rabs_R0).
  destruct (line_run nf (/ 10) n 0 4 5 1) as (r & E1 & E2 & E3 & E4 & E5 & E6 & EI & E7); [lia|right; lra|].
  exists r. eexists. cbv zeta.
  match goal with |- handed_back ?nf ?p ?n ?c ?r ?y ?e /\ _ => assert (handed_back nf p n c r y (mkEntry 0 10 10 10 (Rabs (10 * / 10 - 1)) (step_size (Rabs (10 * / 10 - 1))) false)) as H end.
  { constructor; try (left; right; reflexivity); auto using line_starts, line_well.
    - rewrite E5. repeat f_equal. field.
    - exists []. exact E6.
    - cbn. lra. }
  split; [exact H|]. split; [destruct (handed_scaled _ _ _ _ _ _ _ H) as (bs & cs & _ & _ & _ & HS); eauto|].
  split; [reflexivity|]. split; [reflexivity|]. split; [apply line_rectangular|]. split; [apply line_equalities|]. split; [apply line_costs|].
  split; [intros [|[|]] co Q y Hc HQ; try discriminate; injection Hc as <-; discriminate|]. split; [reflexivity|].
  split; [left; intros dv [<-|[]]; reflexivity|]. split; [cbn; lra|].
  split; [intros [|[|]] co h m As C Hc; try discriminate; injection Hc as <-; discriminate|].
  intros [|[|]] co Hc; try discriminate. injection Hc as <-. intros [|k] Hk; [|cbn in Hk; lia]. unfold row_value. cbn. lra.
Qed.
Print Assumptions C54_suboptimality.
Print Assumptions C54_suboptimality_unscaled.

(** ** C55: cold-started solves complete *)

Theorem C55_completes : forall nf p n c, starts p c -> well_built p -> consistent p -> listed p -> (length (p_cost p) <= SizeOfKKTSystem p)%nat ->
  initialization_mode c = 0%Z -> prepare_dual_variables c = 0%Z ->
  (0 < max_iterations c)%Z -> - / 10 ^ 15 < maximum_mu c ->
  ((0 < final_centering_steps c)%Z \/
   (0 < inv_sqrt_mu_max c /\ 0 <= kkt_error_tolerance c /\ (final_centering_steps c < max_iterations c)%Z)) ->
  (enable_rescaling c <> 0%Z -> inv_sqrt_mu_max c <> 0) ->
  qr_ready nf p c ->
  exists r, ConexSolve nf p n c = Ok (Returned _ r).
Proof. intros nf p n c H1 H2 H3 H4 H5 H6 H7 H8 H9 H10 H11 H12. destruct (cold_solve_total nf p n c) as (r & E & _); eauto. Qed.

Theorem C55_hands_back : forall nf p n c, starts p c -> well_built p -> consistent p -> listed p -> rectangular p -> factorable p ->
  (length (p_cost p) <= SizeOfKKTSystem p)%nat ->
  initialization_mode c = 0%Z -> prepare_dual_variables c = 0%Z ->
  (0 < max_iterations c)%Z -> - / 10 ^ 15 < maximum_mu c -> / 10 ^ 15 + maximum_mu c <= infeasibility_threshold c ->
  ((0 < final_centering_steps c)%Z \/
   (0 < inv_sqrt_mu_max c /\ 0 <= kkt_error_tolerance c /\ (final_centering_steps c < max_iterations c)%Z)) ->
  (enable_rescaling c <> 0%Z -> inv_sqrt_mu_max c <> 0) ->
  qr_ready nf p c ->
  exists r y e, handed_back nf p n c r y e /\ length y = length (p_cost p).
Proof. exact cold_handed. Qed.

(** An equality and a quadratic cost. *)
Example C55_example : let p := square_program in let c := line_config 0 1 5 1 in
  starts p c /\ well_built p /\ consistent p /\ listed p /\ rectangular p /\ factorable p /\ (length (p_cost p) <= SizeOfKKTSystem p)%nat /\
  initialization_mode c = 0%Z /\ prepare_dual_variables c = 0%Z /\ (0 < max_iterations c)%Z /\ - / 10 ^ 15 < maximum_mu c /\
  / 10 ^ 15 + maximum_mu c <= infeasibility_threshold c /\ (0 < final_centering_steps c)%Z /\ enable_rescaling c = 0%Z.
Proof.
  cbv zeta. split; [split; [intros _; split; [discriminate|reflexivity]|discriminate]|].
  split; [exact square_well|]. split; [exact square_consistent|]. split; [exact square_listed|]. split; [exact square_rectangular|]. split; [exact square_factorable|].
  split; [fields; cbn; lia|]. do 3 (split; [reflexivity|]). split; [apply line_mu|]. split; [apply line_mu|]. split; reflexivity.
Qed.
Print Assumptions C55_completes.
Print Assumptions C55_hands_back.
