(** Properties C59-C61: solves of programs with second-order cones. *)
From Coq Require Import List Arith ZArith Reals Bool Lia Lra.
From Verif Require Import Base BaseFacts LayoutModel SupernodeModel TriWorkspaceModel AssemblerModel KktModel ProgramModel ApiModel DivergenceModel
  SolveModel LinearModel ConcreteBackend Spec_Linear Spec_Assembly Spec_Program Spec_Solve Spec_Conex
  SolveProofs SolveFacts SolveStats Prop_Solve ConexFacts ConexStep LineSearchFacts ConexKkt ConexBlocks ConexResult ConexGap ConexOutcome ConexDefinite ConexTotal
  ConexBuilt ToyBackend ConexRun SquareRun ConeRun Prop_Conex.
Import ListNotations.
Open Scope R_scope.

(** ** C59: cone constraints *)

(** The slack of the returned point is in the cone if the last direction was not
    longer than one, and in its interior if it was shorter. *)
Theorem C59_cones_hold : forall nf p n c r y e t i co m A b, starts p c -> sound_start p n c -> limit_fits p c ->
  ConexSolve nf p n c = Ok (Returned _ r) -> rt_y _ r = YVec y -> rt_log _ r = e :: t ->
  1 / (en_ism e * en_ism e) <= infeasibility_threshold c ->
  nth_error (p_eqs p) i = Some co -> ct_data co = CSoc m A b -> on_variables p i ->
  (en_dinf e <= 1 -> lorentz m (cone_slack A b (nth i (p_cliques p) []) y)) /\
  (en_dinf e < 1 -> lorentz_interior m (cone_slack A b (nth i (p_cliques p) []) y)).
Proof.
  intros nf p n c r y e t i co m A b H1 H2 H3 H4 H5 H6 H7 H8 H9 H10.
  destruct (last_step nf p n c r y e t H1 H2 H3 H4 H5 H6 H7) as (p2 & st & st' & y0 & cs & D & F). eapply feasible_cone_step; eauto.
Qed.

(** A reported success implies feasibility if the options rule out the exit after
    the final centering steps. *)
Theorem C59_solved_is_feasible : forall nf p n c r y i co m A b, starts p c -> sound_start p n c -> limit_fits p c ->
  ConexSolve nf p n c = Ok (Returned _ r) -> rt_y _ r = YVec y -> st_solved (p_status (rt_prog _ r)) = true ->
  final_centering_tolerance c <= 1 -> (max_iterations c - 1 <= final_centering_steps c)%Z ->
  nth_error (p_eqs p) i = Some co -> ct_data co = CSoc m A b -> on_variables p i ->
  lorentz m (cone_slack A b (nth i (p_cliques p) []) y).
Proof.
  intros nf p n c r y i co m A b H1 H2 H3 H4 H5 H6 H7 H8 H9 H10 H11.
  pose proof (C31_status (conex (mode_of nf c) nf) p n c r H1 H4) as (_ & _ & _ & HS & _). destruct (HS H6) as (e & t & E1 & E2 & E3 & [[E4 _]|E4]); [|lia].
  apply (C59_cones_hold nf p n c r y e t i co m A b); auto. lra.
Qed.

(** Maximise [y / 10] subject to [|(y, 1/20)| <= 1/10]. *)
Example C59_example : forall nf n, exists r y e t, let p := disk_program (/ 10) in let c := line_config 0 4 5 1 in
  starts p c /\ sound_start p n c /\ limit_fits p c /\ ConexSolve nf p n c = Ok (Returned _ r) /\ rt_y _ r = YVec y /\
  rt_log _ r = e :: t /\ 1 / (en_ism e * en_ism e) <= infeasibility_threshold c /\ en_dinf e <= 1 /\
  final_centering_tolerance c <= 1 /\ (max_iterations c - 1 <= final_centering_steps c)%Z /\
  (exists co, nth_error (p_eqs p) 0 = Some co /\ ct_data co = CSoc 2 disk_A disk_c) /\ on_variables p 0 /\
  length y = 1%nat /\ nth 0 y 0 * nth 0 y 0 <= 3 / 400.
Proof.
  intros nf n. destruct (disk_handed nf (/ 10) n 4 5) as (r & y & e & H & Hy & He & Hm); [lia|rewrite Rabs_pos_eq; lra|].
  destruct (hb_entry _ _ _ _ _ _ _ H) as (t & Et). exists r, y, e, t. destruct H as [H1 H2 H3 H4 H5 H6 H7 H8 H9]. cbv zeta.
  assert (on_variables (disk_program (/ 10)) 0) as HV by (repeat constructor).
  do 8 (split; [assumption|]). split; [cbn; lra|]. split; [cbn; lia|]. split; [eexists; split; reflexivity|]. split; [assumption|]. split; [assumption|].
  destruct (C59_cones_hold _ _ _ _ _ _ _ _ 0 _ _ _ _ H1 H2 H3 H6 H7 Et H9 eq_refl eq_refl HV) as [HC _]. destruct (HC He) as [_ HC'].
  unfold cone_slack, column_value in HC'. cbn in HC'. lra.
Qed.
Print Assumptions C59_cones_hold.
Print Assumptions C59_solved_is_feasible.

(** ** C60: complementarity with cones *)

(** [X] are the dual variables of the last iteration, [D] the components of its
    direction: the inner product of slack and dual is [2 mu (1 - |d|^2)] for every
    cone, and the gap is [mu] times the sum of all these numbers. *)
Theorem C60_complementarity : forall nf p n c r y e bs cs, handed_back nf p n c r y e -> scalings (rt_prog _ r) (rt_num _ r) bs cs ->
  rectangular p -> on_costs p -> conic_only p ->
  exists X D,
    (forall u, (u < SizeOfKKTSystem p)%nat -> gradient p X [] 0 u = - nth u (p_cost p) 0) /\
    (forall i co cols A b, nth_error (p_eqs p) i = Some co -> ct_data co = CLinear cols A b ->
      length (X i) = length A /\ length (nth i D []) = length A /\
      forall k, (k < length A)%nat ->
        let d := nth k (nth i D []) 0 in
        Rabs d <= en_dinf e /\
        (exists w, 0 < w /\ nth k (X i) 0 = w * (1 + d)) /\
        slack_of A b (nth i (p_cliques p) []) y k * nth k (X i) 0 = 1 / (en_ism e * en_ism e) * (1 - d * d) / (bs * cs)) /\
    (forall i co m A b, nth_error (p_eqs p) i = Some co -> ct_data co = CSoc m A b ->
      length (X i) = (m + 1)%nat /\ length (nth i D []) = (m + 1)%nat /\
      (en_dinf e <= 1 -> lorentz m (fun k => nth k (X i) 0)) /\
      total (fun k => cone_slack A b (nth i (p_cliques p) []) y k * nth k (X i) 0) (seq 0 (m + 1)) =
        1 / (en_ism e * en_ism e) * (2 - 2 * total (fun k => nth k (nth i D []) 0 * nth k (nth i D []) 0) (seq 0 (m + 1))) / (bs * cs)) /\
    length D = length (p_eqs p) /\
    linear_cost p y + dual_value p X = 1 / (en_ism e * en_ism e) * (inequalities p - squares p D) / (bs * cs).
Proof.
  intros nf p n c r y e bs cs H HS HR HC HO. destruct (outcome_conic_gap _ _ _ _ _ _ _ _ _ H HS HR HC HO) as (X & D & H1 & H2 & H3 & _ & H5 & H6).
  exists X, D. auto 6.
Qed.

Example C60_example : forall nf n, exists r y e bs cs, let p := disk_program (/ 10) in handed_back nf p n (line_config 0 4 5 1) r y e /\
  scalings (rt_prog _ r) (rt_num _ r) bs cs /\ rectangular p /\ on_costs p /\ conic_only p /\ en_dinf e <= 1.
Proof.
  intros nf n. destruct (disk_handed nf (/ 10) n 4 5) as (r & y & e & H & Hy & He & Hm); [lia|rewrite Rabs_pos_eq; lra|].
  destruct (handed_scaled _ _ _ _ _ _ _ H) as (bs & cs & _ & _ & _ & HS).
  exists r, y, e, bs, cs. cbv zeta. auto 10 using disk_rectangular, disk_costs, disk_conic.
Qed.
Print Assumptions C60_complementarity.

(** The hypotheses of the suboptimality theorem of C54 with a cone: maximise
    [y / 10], compared with [y = 1/12]; the bound is [2 mu = 2/100]. *)
Example C54_cone_example : forall nf n, exists r y e, let p := disk_program (/ 10) in let c := line_config 0 4 5 1 in
  handed_back nf p n c r y e /\ initialization_mode c = 0%Z /\ enable_rescaling c = 0%Z /\ rectangular p /\ sized_equalities p /\ on_costs p /\ convex p /\
  prepare_dual_variables c = 0%Z /\ exact_pivots p (nm_bk (rt_num _ r)) /\ en_dinf e <= 1 /\ no_matrices p /\ feasible p [/ 12] /\
  inequalities p * (1 / (en_ism e * en_ism e)) = 2 / 100.
Proof.
  intros nf n. destruct (disk_handed nf (/ 10) n 4 5) as (r & y & e & H & Hy & He & Hm); [lia|rewrite Rabs_pos_eq; lra|].
  exists r, y, e. cbv zeta. split; [exact H|]. do 2 (split; [reflexivity|]). split; [apply disk_rectangular|]. split; [apply disk_equalities|]. split; [apply disk_costs|].
  split; [intros [|[|]] co Q z Hc HQ; try discriminate; injection Hc as <-; discriminate|]. split; [reflexivity|].
  split; [left; intros dv [<-|[]]; reflexivity|]. split; [exact He|].
  split; [intros [|[|]] co h m As C Hc; try discriminate; injection Hc as <-; discriminate|]. split.
  - intros [|[|]] co Hc; try discriminate. injection Hc as <-. cbn [ct_data]. unfold lorentz, cone_slack, column_value. cbn. lra.
  - rewrite Hm. cbn. lra.
Qed.

(** The hypotheses of the completion theorem of C55 with a cone. *)
Example C55_cone_example : forall b, let p := disk_program b in let c := line_config 0 1 5 1 in
  starts p c /\ well_built p /\ consistent p /\ listed p /\ rectangular p /\ factorable p /\ (length (p_cost p) <= SizeOfKKTSystem p)%nat /\
  initialization_mode c = 0%Z /\ prepare_dual_variables c = 0%Z /\ (0 < max_iterations c)%Z /\ - / 10 ^ 15 < maximum_mu c /\
  / 10 ^ 15 + maximum_mu c <= infeasibility_threshold c /\ (0 < final_centering_steps c)%Z /\ enable_rescaling c = 0%Z.
Proof.
  intros b. cbv zeta. split; [apply disk_starts|]. split; [apply disk_well|]. split; [apply disk_consistent|]. split; [apply disk_listed|].
  split; [apply disk_rectangular|]. split; [apply disk_factorable|]. split; [cbn; lia|].
  do 3 (split; [reflexivity|]). split; [apply line_mu|]. split; [apply line_mu|]. split; reflexivity.
Qed.

(** ** C61: line search with cones *)

(** No line search is implemented for second-order cones, so the search of a program
    with one of them finds no interval. *)
Theorem C61_no_search : forall iters nf p st bound AQc cs b AW st' v i co m A c, nth_error (p_eqs p) i = Some co -> ct_data co = CSoc m A c ->
  ComputeMuFromLineSearch (conex iters nf) p st bound AQc cs b AW = Ok (st', v) -> v = -1.
Proof. intros iters nf p st bound AQc cs b AW st' v i co m A c Hi Hd H. eapply line_search_cone; eauto. rewrite Hd. exact I. Qed.

(** The previous value is then kept: with line search enabled all iterations use the
    largest centering parameter that the options allow, whatever the target
    [inv_sqrt_mu_max]. *)
Theorem C61_parameter_fixed : forall nf p n c r i co m A b, starts p c -> enable_line_search c <> 0%Z ->
  nth_error (p_eqs p) i = Some co -> ct_data co = CSoc m A b -> ConexSolve nf p n c = Ok (Returned _ r) ->
  forall e, In e (rt_log _ r) -> 1 / (en_ism e * en_ism e) = / 10 ^ 15 + maximum_mu c.
Proof.
  intros nf p n c r i co m A b H1 H2 H3 H4 H5 e He.
  assert (unsearched (ct_data co)) as HU by (rewrite H4; exact I).
  destruct (cone_stuck nf p n c r i co H1 H2 H3 HU H5 e He) as [-> Hp]. unfold floor_of in *.
  set (d := / 10 ^ 15 + maximum_mu c) in *. clearbody d.
  destruct (Rle_dec (1 / d) 0) as [H|H]; [rewrite sqrt_neg_0 in Hp by auto; lra|].
  rewrite sqrt_sqrt by lra. assert (d <> 0) as HN.
  { intros E. rewrite E in H. unfold Rdiv in H. rewrite Rinv_0 in H. lra. }
  field. auto.
Qed.

(** A target parameter of [1e-6] and a largest parameter of [1e4], as in the default
    options. *)
Definition search_config : config := {|
  prepare_dual_variables := 0; initialization_mode := 0; inv_sqrt_mu_max := 1000;
  minimum_mu := 0; maximum_mu := 10000; divergence_upper_bound := 1; enable_line_search := 1;
  dinf_upper_bound := 1; final_centering_steps := 5; final_centering_tolerance := 1 / 100;
  initial_centering_steps_warmstart := 0; initial_centering_steps_coldstart := 0;
  warmstart_abort_threshold := 2; max_iterations := 25; iterative_refinement_iterations := 0;
  infeasibility_threshold := 100000; kkt_error_tolerance := 10000000000; enable_rescaling := 0;
  kkt_solver := 0 |}.

Example C61_example : forall nf n b, exists r e t, let p := disk_program b in let c := search_config in
  starts p c /\ enable_line_search c <> 0%Z /\ (exists co, nth_error (p_eqs p) 0 = Some co /\ ct_data co = CSoc 2 disk_A disk_c) /\
  ConexSolve nf p n c = Ok (Returned _ r) /\ rt_log _ r = e :: t /\ 1 / (en_ism e * en_ism e) = / 10 ^ 15 + 10000.
Proof.
  assert (0 < / 10 ^ 15 <= 1) as HB by (split; [apply Rinv_0_lt_compat; lra|rewrite <- Rinv_1; apply Rinv_le_contravar; lra]).
  intros nf n b. destruct (cold_handed nf (disk_program b) n search_config) as (r & y & e & H & Hy);
    auto using disk_starts, disk_well, disk_consistent, disk_listed, disk_rectangular, disk_factorable; try reflexivity;
    unfold search_config, maximum_mu, infeasibility_threshold, enable_rescaling; try lra; try tauto; try (intros Hk; discriminate Hk); try (cbn; lia).
  - destruct (hb_entry _ _ _ _ _ _ _ H) as (t & Et). exists r, e, t. cbv zeta. split; [apply disk_starts|]. split; [discriminate|].
    split; [eexists; split; reflexivity|]. pose proof (hb_solve _ _ _ _ _ _ _ H) as E. split; [exact E|]. split; [exact Et|].
    eapply (C61_parameter_fixed nf (disk_program b) n search_config r 0); eauto using disk_starts; try reflexivity; [discriminate|]. rewrite Et. left. auto.
Qed.
Print Assumptions C61_no_search.
Print Assumptions C61_parameter_fixed.

(** ** C36: dual variables of cones *)

Lemma solve_keeps B p n c r : starts p c -> Solve B p n c = Ok (Returned B r) -> p_eqs (rt_prog B r) = p_eqs p.
Proof.
  intros H E. apply starts_iff in H as [H1 H2].
  apply Solve_refines in E as (o & E). unfold Solve_program in E. rewrite H1 in E. cbn [negb] in E.
  destruct (Nat.eqb_spec (NumberOfConstraints p) 0); [lia|]. apply bind_ok in E as (p2 & Ei & E). injection E as E _.
  destruct (Initialize_fields _ _ _ _ Ei) as (_ & _ & _ & F4 & _). rewrite <- E. exact F4.
Qed.

(** After a cold solve the size of the dual variable of a second-order cone is
    reported, but no entry of the array that is copied was ever written: C36 does
    not extend to cones. *)
Theorem C36_cone_dual_undefined : forall nf p n c r i co m A b, starts p c -> reinitialises p c ->
  ConexSolve nf p n c = Ok (Returned _ r) -> nth_error (p_eqs p) i = Some co -> ct_data co = CSoc m A b ->
  GetDualVariableSize (rt_prog _ r) (Z.of_nat i) = Z.of_nat (m + 1) /\ GetDualVariable (rt_prog _ r) (rt_num _ r) i = UB.
Proof.
  intros nf p n c r i co m A b Hs Hr H Hi Hd.
  pose proof (solve_bound _ _ _ _ _ Hs Hr H) as HK. pose proof (solve_keeps _ _ _ _ _ Hs H) as HE.
  change (bk_state _) with cst in *. split.
  - unfold GetDualVariableSize. assert (Zneg (Z.of_nat i) = false) as -> by (unfold Zneg; apply Z.ltb_ge; lia). rewrite Nat2Z.id, HE, Hi, Hd, HK, seq_length.
    assert (i < length (p_eqs p))%nat as Hl by (apply nth_error_Some; congruence). rewrite (proj2 (Nat.ltb_lt _ _) Hl). reflexivity.
  - unfold GetDualVariable, get_con. rewrite HE, Hi. match goal with |- context [nth_error ?l i] => destruct (nth_error l i) as [s|]; [|reflexivity] end. cbn [bind]. rewrite Hd. reflexivity.
Qed.
Example C36_cone_example : forall nf n, exists r y, let p := disk_program (/ 10) in let c := line_config 0 4 5 1 in
  starts p c /\ reinitialises p c /\ ConexSolve nf p n c = Ok (Returned _ r) /\ rt_y _ r = YVec y /\
  (exists co, nth_error (p_eqs p) 0 = Some co /\ ct_data co = CSoc 2 disk_A disk_c) /\
  GetDualVariableSize (rt_prog _ r) 0 = 3%Z.
Proof.
  intros nf n. destruct (disk_handed nf (/ 10) n 4 5) as (r & y & e & H & Hy & He & Hm); [lia|rewrite Rabs_pos_eq; lra|].
  exists r, y. destruct H as [H1 H2 H3 H4 H5 H6 H7 H8 H9]. cbv zeta. assert (reinitialises (disk_program (/ 10)) (line_config 0 4 5 1)) as HR by (right; reflexivity).
  split; [auto|]. split; [auto|]. split; [auto|]. split; [auto|]. split; [eexists; split; reflexivity|].
  destruct (C36_cone_dual_undefined nf _ _ _ r 0 _ _ _ _ H1 HR H6 eq_refl eq_refl) as [E _]. exact E.
Qed.
Print Assumptions C36_cone_dual_undefined.
