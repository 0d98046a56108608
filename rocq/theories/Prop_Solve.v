(** Properties C27-C33 and C51: the solve loop, for arbitrary constraint and KKT
    solver operations. *)
From Coq Require Import List Arith ZArith Reals Bool Lia Lra.
From Verif Require Import Base BaseFacts LayoutModel AssemblerModel KktModel ProgramModel ApiModel DivergenceModel
  SolveModel Spec_Program Spec_Solve SolveProofs SolveFacts SolveStats ProgramProofs ProgramRun ProgramState ToyBackend.
Import ListNotations.
Open Scope R_scope.

Lemma starts_iff p c : starts p c <-> quadratic_precondition p c = true /\ (0 < NumberOfConstraints p)%nat.
Proof.
  unfold starts, quadratic_precondition, NumberOfConstraints. split.
  - intros [H1 H2]. split; [|destruct (p_eqs p); [contradiction|cbn; lia]].
    destruct (p_quadratic p); cbn; auto. destruct (H1 eq_refl) as [G1 G2]. rewrite G2. apply Z.eqb_neq in G1. rewrite G1. auto.
  - intros [H1 H2]. split; [|intros E; rewrite E in H2; cbn in H2; lia].
    intros Hq. rewrite Hq in H1. cbn in H1. apply andb_prop in H1 as [G1 G2]. apply Z.eqb_eq in G2. split; auto.
    destruct (Z.eqb_spec (enable_line_search c) 0); [discriminate|auto].
Qed.

Lemma session_sized B p n : session B p n -> sized p n.
Proof.
  induction 1 as [m n|p n k p' r Hs IH Hk E|p n c r Hs IH E].
  - cbn. auto.
  - destruct (step_rest _ _ _ _ E) as [HR _]. specialize (HR Hk). unfold rest in HR.
    repeat match type of HR with (_, _) = (_, _) => apply pair_equal_spec in HR as [HR ?] end.
    unfold sized in *. replace (p_stats p') with (p_stats p) by congruence. auto.
  - eapply sized_kept; eauto.
Qed.

Lemma session_state B p n : session B p n -> wstate p.
Proof.
  induction 1 as [m n|p n k p' r Hs IH Hk E|p n c r Hs IH E].
  - apply new_state.
  - eapply step_state; eauto.
  - apply Solve_refines in E as (o & E). eapply Solve_state; eauto.
Qed.

(** ** C27: iteration statistics stay in bounds *)

Theorem C27_statistics_in_bounds : forall B p n c x, session B p n -> starts p c -> limit_fits p c ->
  Solve B p n c = Ok x ->
  exists r ss, x = Returned B r /\ p_stats (rt_prog B r) = Some ss /\ sized (rt_prog B r) (rt_num B r) /\
    let M := ss_max_iter ss in
    (forall e, In e (rt_log B r) -> (en_i e < M)%nat /\ cell_is (rt_num B r) (en_i e) (en_ism e)) /\
    (~ reinitialises p c -> nth_error (nm_area (rt_num B r)) (2 * M + 1) = nth_error (nm_area n) (2 * M + 1) /\
                            nth_error (nm_area (rt_num B r)) (2 * M) = nth_error (nm_area n) (2 * M)) /\
    (initialization_mode c = 0%Z -> enable_rescaling c = 0%Z ->
       cell_is (rt_num B r) (2 * M + 1) 1 /\ cell_is (rt_num B r) (2 * M) 1) /\
    (initialization_mode c = 0%Z -> enable_rescaling c <> 0%Z -> 0 < inv_sqrt_mu_max c -> rt_log B r <> [] ->
       cell_is (rt_num B r) (2 * M + 1) (1 / (1 + vnorm (map Ropp (p_cost p)))) /\
       exists q, cell_is (rt_num B r) (2 * M) (1 / (1 + vnorm q))).
Proof.
  intros B p n c x Hs H Hl E. apply starts_iff in H as [H1 H2]. eapply stats_in_bounds; eauto. apply session_sized in Hs. auto.
Qed.

Theorem C27_sessions_are_sized : forall B p n, session B p n -> sized p n.
Proof. exact session_sized. Qed.

Lemma toy_session : session (toy true 1 2) toy_program (mkNum tt []).
Proof.
  apply (Call _ (new_program 1) _ (PAddConstraint false (CLinear 1 [[1]] [1]) None) toy_program (mkReply SUCCESS None)).
  - apply Fresh.
  - cbn. tauto.
  - reflexivity.
Qed.
Lemma toy_session_once : session (toy true 1 2) toy_solved_once toy_memory.
Proof. destruct toy_first as (y & E). exact (Solved _ _ _ _ _ toy_session E). Qed.

(** Without the limit the claim is false: a warm start with a larger limit
    overwrites the stored scaling of the cost ... *)
Theorem C27_scaling_overwritten_refuted : exists B p n c r M, session B p n /\ starts p c /\
  initialization_mode c = 1%Z /\ p_stats p = Some (mkStats M (Some M)) /\ (max_iterations c = Z.of_nat M + 2)%Z /\
  Solve B p n c = Ok (Returned B r) /\
  cell_is n (2 * M) 1 /\ cell_is (rt_num B r) (2 * M) 2.
Proof.
  destruct toy_warm_three as (y & p' & E).
  eexists (toy true 1 2), toy_solved_once, toy_memory, (toy_config 1 3), _, 1%nat.
  split; [apply toy_session_once|]. split; [apply starts_iff; split; [reflexivity|cbn; lia]|].
  split; [reflexivity|]. split; [reflexivity|]. split; [reflexivity|]. split; [exact E|]. split; reflexivity.
Qed.

(** ... and with a still larger one writes behind the area. *)
Theorem C27_overflow_refuted : exists B p n c, session B p n /\ starts p c /\ initialization_mode c = 1%Z /\
  Solve B p n c = Ok (Overflow B 4) /\ length (nm_area n) = 4%nat.
Proof.
  exists (toy true 1 2), toy_solved_once, toy_memory, (toy_config 1 5).
  split; [apply toy_session_once|]. split; [apply starts_iff; split; [reflexivity|cbn; lia]|].
  split; [reflexivity|]. split; [apply toy_warm_five|reflexivity].
Qed.

Example C27_example : exists x, session (toy true 1 2) toy_program (mkNum tt []) /\ starts toy_program (toy_config 0 1) /\
  limit_fits toy_program (toy_config 0 1) /\ Solve (toy true 1 2) toy_program (mkNum tt []) (toy_config 0 1) = Ok x.
Proof.
  destruct toy_first as (y & E). eexists. split; [apply toy_session|].
  split; [apply starts_iff; split; [reflexivity|cbn; lia]|]. split; [left; left; reflexivity|exact E].
Qed.

Print Assumptions C27_statistics_in_bounds.
Print Assumptions C27_sessions_are_sized.
Print Assumptions C27_scaling_overwritten_refuted.
Print Assumptions C27_overflow_refuted.

(** ** C28: query of the iteration statistics *)

(** [num] is the number of recorded iterations. *)
Theorem C28_query : forall B p n c r e t iter, session B p n -> starts p c -> limit_fits p c ->
  Solve B p n c = Ok (Returned B r) -> rt_log B r = e :: t ->
  let num := Z.of_nat (S (en_i e)) in
  let q := GetIterationStats (p_stats (rt_prog B r)) iter in
  ((0 <= iter < num)%Z -> q = Ok (Some (Z.to_nat iter))) /\
  ((- num <= iter < 0)%Z -> q = Ok (Some (Z.to_nat (num + iter)))) /\
  ((iter < - num \/ num <= iter)%Z -> q = Ok None) /\
  (forall i, q = Ok (Some i) -> (i <= en_i e)%nat /\
     (initialization_mode c <> 1%Z \/ (0 < i)%nat ->
      exists e', In e' (rt_log B r) /\ en_i e' = i /\ cell_is (rt_num B r) i (en_ism e'))).
Proof.
  intros B p n c r e t iter Hs H Hl. apply starts_iff in H as [H1 H2]. eapply query_after_solve; eauto. apply session_sized in Hs. auto.
Qed.

(** Before the first solve the query dereferences a null pointer. *)
Theorem C28_before_solve_undefined : forall m ks p rs iter, Forall (fun k => ~ is_solve k) ks ->
  api_run (new_program m) ks = Ok (p, rs) -> GetIterationStats (p_stats p) iter = UB.
Proof.
  intros m ks p rs iter Hk E. apply run_fresh in E; auto; [|repeat split]. destruct E as (_ & _ & _ & ->). reflexivity.
Qed.

Example C28_example : exists r e t, session (toy true 1 2) toy_program (mkNum tt []) /\ starts toy_program (toy_config 0 1) /\
  limit_fits toy_program (toy_config 0 1) /\
  Solve (toy true 1 2) toy_program (mkNum tt []) (toy_config 0 1) = Ok (Returned _ r) /\ rt_log _ r = e :: t /\
  GetIterationStats (p_stats (rt_prog _ r)) (-1) = Ok (Some 0%nat) /\ cell_is (rt_num _ r) 0 2 /\
  GetIterationStats (p_stats (rt_prog _ r)) 1 = Ok None /\ GetIterationStats (p_stats (rt_prog _ r)) (-2) = Ok None.
Proof.
  destruct toy_first as (y & E). eexists _, _, _. split; [apply toy_session|].
  split; [apply starts_iff; split; [reflexivity|cbn; lia]|]. split; [left; left; reflexivity|]. split; [exact E|]. repeat split.
Qed.

Print Assumptions C28_query.
Print Assumptions C28_before_solve_undefined.

(** ** C29: constraints bound at a solve *)

Theorem C29_cold_start_binds_all : forall B p n c r, session B p n -> starts p c -> reinitialises p c ->
  Solve B p n c = Ok (Returned B r) -> all_bound (rt_prog B r) /\ p_eqs (rt_prog B r) = p_eqs p.
Proof.
  intros B p n c r Hs H Hr E. apply starts_iff in H as [H1 H2].
  apply Solve_refines in E as (o & E). unfold Solve_program in E. rewrite H1 in E. cbn [negb] in E.
  destruct (Nat.eqb_spec (NumberOfConstraints p) 0); [lia|]. apply bind_ok in E as (p2 & Ei & E). injection E as E _.
  destruct (Initialize_fields _ _ _ _ Ei) as (_ & _ & _ & F4 & F5 & F6 & _ & _ & F).
  match type of F with (if ?x then _ else _) => assert (x = true) as T end.
  { cbn. destruct Hr as [->| ->]; auto. apply orb_true_r. }
  rewrite T in F. destruct F as (_ & _ & _ & F1 & F2).
  assert (length (p_workspaces p2) = (2 * length (p_eqs p2) + 2)%nat) as F3.
  { apply Initialize_state in Ei as (k & (K1 & K2 & K3 & K4 & K5 & K6) & Hk).
    - rewrite K4, F4. cbn in Hk |- *. rewrite Hk; [reflexivity|]. destruct Hr as [Hr|Hr]; [auto|right; rewrite Hr; auto].
    - cbn. auto.
    - destruct (session_state _ _ _ Hs) as [G|(k & G)]; [left|right; exists k]; exact G. }
  split; [|rewrite <- E; cbn; rewrite F4; reflexivity].
  unfold all_bound. rewrite <- E. cbn [set_status set_stats p_kkt p_eqs p_solver p_cliques p_duals p_workspaces].
  split; [rewrite F2, F4; reflexivity|]. split; [rewrite F1, F5, F6; reflexivity|exact F3].
Qed.

(** A warm start keeps the binding of the last initialisation, whatever was added
    since. *)
Theorem C29_warm_start_keeps_binding : forall B p n c r, session B p n -> starts p c -> ~ reinitialises p c ->
  Solve B p n c = Ok (Returned B r) ->
  p_kkt (rt_prog B r) = p_kkt p /\ p_solver (rt_prog B r) = p_solver p /\
  p_workspaces (rt_prog B r) = p_workspaces p /\ p_eqs (rt_prog B r) = p_eqs p /\
  exists k, p_kkt p = seq 0 k /\ (k <= length (p_eqs p))%nat.
Proof.
  intros B p n c r Hs H Hr E. apply starts_iff in H as [H1 H2].
  assert (p_init p = true /\ (initialization_mode c =? 0)%Z = false) as [T1 T2].
  { unfold reinitialises in Hr. destruct (p_init p); [|tauto]. destruct (Z.eqb_spec (initialization_mode c) 0); tauto. }
  apply Solve_refines in E as (o & E). unfold Solve_program in E. rewrite H1 in E. cbn [negb] in E.
  destruct (Nat.eqb_spec (NumberOfConstraints p) 0); [lia|]. apply bind_ok in E as (p2 & Ei & E). injection E as E _.
  unfold Initialize in Ei. cbn [clear set_status p_init] in Ei. rewrite T1, T2 in Ei. cbn in Ei. injection Ei as <-.
  rewrite <- E. cbn [set_status set_stats p_kkt p_eqs p_solver p_workspaces]. repeat split.
  destruct (session_state _ _ _ Hs) as [(G & _)|(k & _ & K2 & _ & _ & K5 & _)]; [congruence|]. exists k. split; auto.
Qed.

(** So a constraint added after a solve is left out by a warm start. *)
Theorem C29_added_constraint_refuted : exists ks p rs c o p',
  api_run (new_program 1) ks = Ok (p, rs) /\ initialization_mode c = 1%Z /\
  Solve_program p c o = Ok (p', 1%Z) /\ st_solved (p_status p') = true /\
  length (p_eqs p') = 2%nat /\ ~ In 1%nat (p_kkt p') /\ p_solver p' = Some ([[0%nat]], [[]]).
Proof.
  exists [ANewLinearInequality 1 false;
          ASolve (CONEX_SetDefaultOptions (mkApi 0 0 0 0 0 0 0 0 0 0 0 0 0 0 0 0 0 0 0)) (mkOutcome 1 (mkStatus true 3 false false) (Some 3%nat));
          AAddDenseLinear 1 [[1]] [1]].
  eexists _, _, (toy_config 1 25), (mkOutcome 1 (mkStatus true 4 false false) (Some 4%nat)), _.
  split; [cbv -[Rplus Rmult IZR Rdiv Rinv pow]; reflexivity|]. split; [reflexivity|].
  split; [cbv -[Rplus Rmult IZR Rdiv Rinv pow]; reflexivity|]. repeat split.
  cbn. intros [H|[]]; discriminate.
Qed.

Example C29_example : exists r, session (toy true 1 2) toy_program (mkNum tt []) /\ starts toy_program (toy_config 0 1) /\
  reinitialises toy_program (toy_config 0 1) /\ Solve (toy true 1 2) toy_program (mkNum tt []) (toy_config 0 1) = Ok (Returned _ r) /\
  all_bound (rt_prog _ r).
Proof.
  destruct toy_first as (y & E). eexists. split; [apply toy_session|].
  split; [apply starts_iff; split; [reflexivity|cbn; lia]|]. split; [left; reflexivity|]. split; [exact E|]. repeat split.
Qed.
Example C29_warm_example : exists r, session (toy true 1 2) toy_solved_once toy_memory /\ starts toy_solved_once (toy_config 1 3) /\
  ~ reinitialises toy_solved_once (toy_config 1 3) /\
  Solve (toy true 1 2) toy_solved_once toy_memory (toy_config 1 3) = Ok (Returned _ r).
Proof.
  destruct toy_warm_three as (y & p' & E). eexists. split; [apply toy_session_once|].
  split; [apply starts_iff; split; [reflexivity|cbn; lia]|]. split; [intros [H|H]; discriminate|exact E].
Qed.

Print Assumptions C29_cold_start_binds_all.
Print Assumptions C29_warm_start_keeps_binding.
Print Assumptions C29_added_constraint_refuted.

(** ** C30: the returned value *)

Theorem C30_return_value : forall B p n c r,
  (p_quadratic p = true -> enable_line_search c <> 0%Z /\ enable_rescaling c = 0%Z) ->
  Solve B p n c = Ok (Returned B r) ->
  rt_value B r = (if st_solved (p_status (rt_prog B r)) then 1 else 0)%Z.
Proof.
  intros B p n c r H. apply return_truthful. unfold quadratic_precondition. destruct (p_quadratic p); auto.
  destruct (H eq_refl) as [G1 G2]. rewrite G2. apply Z.eqb_neq in G1. rewrite G1. auto.
Qed.

(** With the precondition violated, [Solve] returns [true] and changes nothing. *)
Theorem C30_violated_precondition : forall B p n c,
  p_quadratic p = true -> enable_line_search c = 0%Z \/ enable_rescaling c <> 0%Z ->
  Solve B p n c = Ok (Returned B (mkRet B p n 1%Z YUntouched [])).
Proof.
  intros B p n c Hp H. unfold Solve, quadratic_precondition. rewrite Hp. cbn [negb orb].
  destruct H as [->|H]; [reflexivity|]. apply Z.eqb_neq in H. rewrite H, andb_false_r. reflexivity.
Qed.

(** So the returned value alone is not truthful: a program that was never solved. *)
Theorem C30_untruthful_refuted : exists B p n c r, session B p n /\ Solve B p n c = Ok (Returned B r) /\
  rt_value B r = 1%Z /\ st_solved (p_status (rt_prog B r)) = false.
Proof.
  set (B := toy true 1 2). set (c := let d := toy_config 0 1 in mkConfig 0 0 1000 0 10000 1 0 1 0 1 0 0 2 1 0 100000 10000 0 0).
  destruct (AddQuadraticCost (new_program 1) [[1]] [0%Z]) as [[p s]| | |] eqn:Ep; try discriminate.
  exists B, p, (mkNum tt []), c. eexists. split; [|split; [apply C30_violated_precondition|]].
  - apply (Call B (new_program 1) _ (PAddQuadraticCost [[1]] [0%Z]) p (mkReply s None)); [apply Fresh|cbn; tauto|].
    cbn [api_step]. rewrite Ep. reflexivity.
  - vm_compute in Ep. injection Ep as <- _. reflexivity.
  - left. reflexivity.
  - split; [reflexivity|]. vm_compute in Ep. injection Ep as <- _. reflexivity.
Qed.

Example C30_example : exists r, Solve (toy true 0 2000) toy_program (mkNum tt []) (toy_config 0 1) = Ok (Returned _ r) /\
  (p_quadratic toy_program = true -> enable_line_search (toy_config 0 1) <> 0%Z /\ enable_rescaling (toy_config 0 1) = 0%Z) /\
  rt_value _ r = 1%Z /\ st_solved (p_status (rt_prog _ r)) = true.
Proof. destruct toy_converges as (y & E). eexists. split; [exact E|]. split; [discriminate|]. split; reflexivity. Qed.

Print Assumptions C30_return_value.
Print Assumptions C30_violated_precondition.
Print Assumptions C30_untruthful_refuted.

(** ** C31: termination and status *)

Theorem C31_status : forall B p n c r, starts p c -> Solve B p n c = Ok (Returned B r) ->
  let st := p_status (rt_prog B r) in
  (length (rt_log B r) <= Z.to_nat (max_iterations c))%nat /\
  (exists j k, (j <= 1)%nat /\ (j + k <= Z.to_nat (max_iterations c))%nat /\ map en_i (rt_log B r) = rev (seq j k) /\
     (j = 0%nat \/ initialization_mode c = 1%Z)) /\
  (st_solved st = true -> st_primal_infeasible st = false /\ st_dual_infeasible st = false) /\
  (st_solved st = true -> exists e t, rt_log B r = e :: t /\ 0 < en_ism e /\
     1 / (en_ism e * en_ism e) <= infeasibility_threshold c /\
     ((en_dinf e <= final_centering_tolerance c /\ (en_final e = true \/ en_max e <= en_ism e)) \/
      ((final_centering_steps c <= Z.of_nat (length (rt_log B r)) < max_iterations c - 1)%Z))) /\
  (st_primal_infeasible st = true \/ st_dual_infeasible st = true ->
     st_solved st = false /\ exists e t, rt_log B r = e :: t /\ infeasibility_threshold c < 1 / (en_ism e * en_ism e)) /\
  (forall e t, rt_y B r <> YUntouched -> rt_log B r = e :: t ->
     st_num_iterations st = S (en_i e) /\ (S (en_i e) <= Z.to_nat (max_iterations c))%nat).
Proof. intros B p n c r H. apply starts_iff in H as [H1 H2]. apply solve_status; auto. Qed.

(** With an iteration limit below one, a solve that initialises the workspace
    reads the iteration count that was never set: no defined result. *)
Theorem C31_no_iterations_undefined : forall B p n c x, starts p c -> reinitialises p c -> (max_iterations c <= 0)%Z ->
  Solve B p n c <> Ok x.
Proof. intros B p n c x H. apply starts_iff in H as [H1 H2]. apply no_iterations; auto. Qed.

Example C31_example : exists r e, starts toy_program (toy_config 0 1) /\
  Solve (toy true 0 2000) toy_program (mkNum tt []) (toy_config 0 1) = Ok (Returned _ r) /\
  st_solved (p_status (rt_prog _ r)) = true /\ rt_log _ r = [e] /\ en_ism e = 1000 /\ st_num_iterations (p_status (rt_prog _ r)) = 1%nat.
Proof.
  destruct toy_converges as (y & E). eexists _, _. split; [apply starts_iff; split; [reflexivity|cbn; lia]|].
  split; [exact E|]. repeat split.
Qed.
Example C31_no_iterations_example : starts toy_program (toy_config 0 0) /\ reinitialises toy_program (toy_config 0 0) /\
  (max_iterations (toy_config 0 0) <= 0)%Z.
Proof. split; [apply starts_iff; split; [reflexivity|cbn; lia]|]. split; [left; reflexivity|cbn; lia]. Qed.

Print Assumptions C31_status.
Print Assumptions C31_no_iterations_undefined.

(** ** C32: the centering parameter stays within its limits *)

Theorem C32_clamp : forall x lb ub, lb <= ub ->
  lb <= ApplyLimits x lb ub <= ub /\ (lb <= x <= ub -> ApplyLimits x lb ub = x) /\
  (x < lb -> ApplyLimits x lb ub = lb) /\ (ub < x -> ApplyLimits x lb ub = ub).
Proof.
  intros x lb ub H. rewrite ApplyLimits_spec. destruct (Rlt_dec ub lb); [lra|].
  destruct (Rle_dec x ub); [rewrite Rmin_left by lra|rewrite Rmin_right by lra];
    (destruct (Rle_dec lb x); [rewrite Rmax_right by lra|try rewrite Rmax_left by lra]); try rewrite Rmax_right by lra; repeat split; intros; lra.
Qed.
Theorem C32_clamp_crossed : forall x lb ub, ub < lb -> ApplyLimits x lb ub = lb.
Proof. intros x lb ub H. rewrite ApplyLimits_spec. destruct (Rlt_dec ub lb); lra. Qed.

Theorem C32_limits : forall B p n c r, starts p c -> Solve B p n c = Ok (Returned B r) ->
  (forall e, In e (rt_log B r) ->
     en_min e = floor_of c /\ 0 < en_min e <= en_ism e /\
     (en_min e <= en_max e -> en_ism e <= en_max e) /\
     (en_max e < en_min e -> en_ism e = en_min e)) /\
  (forall e e', In e (rt_log B r) -> In e' (rt_log B r) -> en_max e = en_max e') /\
  (enable_rescaling c = 0%Z -> forall e, In e (rt_log B r) -> en_max e = inv_sqrt_mu_max c) /\
  (enable_rescaling c <> 0%Z -> initialization_mode c = 0%Z -> 0 < inv_sqrt_mu_max c ->
     exists q, forall e, In e (rt_log B r) ->
       en_max e = inv_sqrt_mu_max c * sqrt ((1 + vnorm (map Ropp (p_cost p))) * (1 + vnorm q))).
Proof.
  intros B p n c r H E. apply starts_iff in H as [H1 H2]. destruct (solve_limits B p n c r H1 H2 E) as (L1 & L2 & L3 & L4).
  split; [|split; [|split]]; auto. intros e He. destruct (L1 e He) as (G1 & G2 & G3 & G4 & _). auto.
Qed.

Example C32_example : exists r e, starts toy_program (toy_config 0 1) /\
  Solve (toy true 0 2000) toy_program (mkNum tt []) (toy_config 0 1) = Ok (Returned _ r) /\ In e (rt_log _ r) /\
  en_ism e = 1000 /\ en_max e = 1000 /\ en_min e < 1.
Proof.
  destruct toy_converges as (y & E). eexists _, _. split; [apply starts_iff; split; [reflexivity|cbn; lia]|].
  split; [exact E|]. split; [left; reflexivity|]. split; [reflexivity|]. split; [reflexivity|]. apply floor_small.
Qed.

Print Assumptions C32_clamp.
Print Assumptions C32_clamp_crossed.
Print Assumptions C32_limits.

(** ** C33, first half: the step size *)

Theorem C33_step_size : forall n, 0 < step_size n <= 1 /\ step_size n * Rabs n <= sqrt 2 /\
  (Rabs n <= sqrt 2 -> step_size n = 1).
Proof.
  intros n. destruct (step_size_spec n) as [H1 H2]. split; auto. split; auto.
  intros H. unfold step_size. destruct (Req0_spec n) as [->|Hn]; auto.
  assert (0 < Rabs n) as HA by (apply Rabs_pos_lt; auto).
  assert (n * n = Rabs n * Rabs n) as E by (rewrite <- Rabs_mult; symmetry; apply Rabs_pos_eq; nra). rewrite E.
  assert (sqrt 2 * sqrt 2 = 2) by (apply sqrt_sqrt; lra).
  assert (1 <= 2 / (Rabs n * Rabs n)).
  { apply (Rmult_le_reg_r (Rabs n * Rabs n)); [nra|]. unfold Rdiv. rewrite Rmult_assoc, Rinv_l by nra. nra. }
  destruct (Rltb_spec 1 (2 / (Rabs n * Rabs n))); lra.
Qed.

Theorem C33_steps_taken : forall B p n c r, starts p c -> Solve B p n c = Ok (Returned B r) ->
  forall e, In e (rt_log B r) -> 0 < en_step e <= 1 /\ 0 <= en_dinf e /\ en_step e * en_dinf e <= sqrt 2.
Proof.
  intros B p n c r H E e He. apply starts_iff in H as [H1 H2]. destruct (solve_limits B p n c r H1 H2 E) as (L1 & _).
  destruct (L1 e He) as (_ & _ & _ & _ & G). exact G.
Qed.

Example C33_example : step_size 2 = 1 / 2 /\ step_size 1 = 1 /\ exists r e, starts toy_program (toy_config 0 1) /\
  Solve (toy true 1 2) toy_program (mkNum tt []) (toy_config 0 1) = Ok (Returned _ r) /\ In e (rt_log _ r) /\ en_dinf e = 1.
Proof.
  split. { unfold step_size. destruct (Req0_spec 2); [lra|]. destruct (Rltb_spec 1 (2 / (2 * 2))); lra. }
  split. { unfold step_size. destruct (Req0_spec 1); [lra|]. destruct (Rltb_spec 1 (2 / (1 * 1))); lra. }
  destruct toy_first as (y & E). eexists _, _. split; [apply starts_iff; split; [reflexivity|cbn; lia]|].
  split; [exact E|]. split; [left; reflexivity|]. reflexivity.
Qed.

Print Assumptions C33_step_size.
Print Assumptions C33_steps_taken.

(** ** C51: a warm start as the first solve *)

(** It completes no iteration and does not report a solution. *)
Theorem C51_first_warm_start : forall B p n c r, starts p c -> p_init p = false -> initialization_mode c <> 0%Z ->
  Solve B p n c = Ok (Returned B r) ->
  rt_log B r = [] /\ st_solved (p_status (rt_prog B r)) = false /\ rt_value B r = 0%Z.
Proof. intros B p n c r H. apply starts_iff in H as [H1 H2]. apply first_warm_start; auto. Qed.

(** When the first factorization succeeds, it uses a scaling that was never
    written. *)
Theorem C51_undefined : forall B p n c p2 st0 st1, starts p c -> p_init p = false -> initialization_mode c <> 0%Z ->
  (0 < max_iterations c)%Z -> (final_centering_steps c > 0)%Z ->
  Initialize (clear p) false (Z.to_nat (max_iterations c)) = Ok p2 ->
  bk_assemble B p2 (bk_initialize B p2 (nm_bk n)) = Ok st0 -> bk_factor B p2 st0 = Ok (st1, true) ->
  Solve B p n c = UB.
Proof.
  intros B p n c p2 st0 st1 H Hi Hm Hit Hf Ei Ea Ef. apply starts_iff in H as [H1 H2].
  unfold Solve. rewrite H1. cbn [negb]. destruct (Nat.eqb_spec (NumberOfConstraints p) 0); [lia|].
  apply Z.eqb_neq in Hm. rewrite Hm. fold (clear p). rewrite Ei. cbn [bind].
  destruct (Initialize_fields _ _ _ _ Ei) as (_ & _ & _ & _ & _ & _ & _ & _ & F).
  cbn [clear set_status p_init] in F. rewrite Hi in F. cbn in F. destruct F as (F & _). rewrite F.
  replace (Z.to_nat (max_iterations c)) with (S (Z.to_nat (max_iterations c) - 1)) at 2 by lia. cbn [loop ss_max_iter ss_num_iter].
  unfold iteration. cbn [l_centering_steps l_max l_ism l_kkt_error l_num l_num_iter l_y l_step l_cx l_by l_log l_aborted].
  destruct (Z.leb_spec (final_centering_steps c) 0); [lia|]. rewrite andb_false_r.
  unfold Initialize_numeric. cbn [clear set_status p_init]. rewrite Hi. cbn [negb orb nm_bk nm_area].
  rewrite Ea. cbn [bind].
  assert (forall k, get_cell (repeat None (2 * Z.to_nat (max_iterations c) + 2)) k = UB) as Hget.
  { intros k. unfold get_cell, idx. destruct (nth_error _ k) eqn:En; auto. apply nth_error_In, repeat_spec in En. subst o. reflexivity. }
  cbn [Nat.ltb Nat.leb andb]. destruct (negb (enable_rescaling c =? 0)%Z).
  - unfold rescale. rewrite Hm. cbn [bind]. rewrite Hget. reflexivity.
  - cbn [bind]. rewrite Ef. cbn [bind negb Nat.eqb orb]. rewrite Hget. reflexivity.
Qed.

Lemma toy_warm_first : exists r, Solve (toy false 1 2) toy_program (mkNum tt []) (toy_config 1 2) = Ok (Returned _ r).
Proof.
  assert (forall b, Rleb 1000 0 || xgt (XFin 0) (kkt_error_tolerance (toy_config 1 2)) || b = b) as E.
  { intros b. replace (xgt (XFin 0) (kkt_error_tolerance (toy_config 1 2))) with false by (symmetry; apply toy_zero_error). destruct (Rleb_spec 1000 0); [lra|reflexivity]. }
  destruct (Initialize (clear toy_program) false 2) as [p2| | |] eqn:Ei; try discriminate.
  assert (p_stats p2 = Some (mkStats 2 None)) as Es by (vm_compute in Ei; injection Ei as <-; reflexivity).
  assert (exists s, loop (toy false 1 2) p2 (toy_config 1 2) 2 0 (cost_vector p2) (Rank (toy false 1 2) p2) 2 0
            (start (toy false 1 2) (clear toy_program) p2 (mkNum tt []) (toy_config 1 2) (mkStats 2 None)) = Ok (VReturn s 0%Z)) as (s & El).
  { cbn [loop]. unfold iteration at 1.
    cbn [start l_max l_ism l_kkt_error]. change (inv_sqrt_mu_max (toy_config 1 2)) with 1000. rewrite E. cbn [bind toy bk_assemble bk_factor negb andb].
    cbn. unfold iteration. cbn [l_max l_ism l_kkt_error]. rewrite E. cbn. eexists. reflexivity. }
  eexists. rewrite (Solve_by_loop _ _ _ _ p2 (mkStats 2 None) (VReturn s 0%Z)); try reflexivity; auto.
Qed.

Example C51_example : exists r, starts toy_program (toy_config 1 2) /\ p_init toy_program = false /\
  initialization_mode (toy_config 1 2) <> 0%Z /\
  Solve (toy false 1 2) toy_program (mkNum tt []) (toy_config 1 2) = Ok (Returned _ r).
Proof.
  destruct toy_warm_first as (r & E). exists r. split; [apply starts_iff; split; [reflexivity|cbn; lia]|]. split; [reflexivity|]. split; [discriminate|]. exact E.
Qed.
Example C51_undefined_example : exists p2 st0 st1,
  let c := mkConfig 0 1 1000 0 10000 1 1 1 5 1 0 0 2 25 0 100000 10000 1 0 in
  starts toy_program c /\ p_init toy_program = false /\ initialization_mode c <> 0%Z /\
  (0 < max_iterations c)%Z /\ (final_centering_steps c > 0)%Z /\
  Initialize (clear toy_program) false (Z.to_nat (max_iterations c)) = Ok p2 /\
  bk_assemble (toy true 1 2) p2 (bk_initialize (toy true 1 2) p2 tt) = Ok st0 /\ bk_factor (toy true 1 2) p2 st0 = Ok (st1, true).
Proof.
  eexists _, tt, tt. cbn zeta. split; [apply starts_iff; split; [reflexivity|cbn; lia]|]. split; [reflexivity|]. split; [discriminate|].
  split; [reflexivity|]. split; [reflexivity|]. split; [reflexivity|]. split; reflexivity.
Qed.

Print Assumptions C51_first_warm_start.
Print Assumptions C51_undefined.
