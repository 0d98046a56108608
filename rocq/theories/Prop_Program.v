(** Properties C18-C25 and C50: the program object and its C interface. *)
From Coq Require Import List Arith ZArith Reals Bool Lia Lra.
From Verif Require Import Base BaseFacts LayoutModel TriWorkspaceModel AssemblerModel Spec_Assembly
  AssemblerProofs KktModel LinearFacts ProgramModel PreprocessModel ApiModel Spec_Program ProgramProofs ProgramRun
  CoeffProofs ProgramState.
Import ListNotations.
Open Scope nat_scope.

(** ** C18: variable lists are validated exactly *)

Theorem C18_validation : forall n x, (forall v, In v x -> (0 <= v)%Z) ->
  exists b, IsUnique n x = Ok b /\ (b = true <-> good_list n x).
Proof. exact is_unique_nonneg. Qed.

(** Acceptance of a constraint: success exactly on good lists, and a rejected
    one leaves the program alone. *)
Theorem C18_acceptance : forall p lvalue x v, (forall i, In i v -> (0 <= i)%Z) ->
  exists p' s, AddConstraint p lvalue x (Some v) = Ok (p', s) /\
    (s = SUCCESS <-> good_list (p_n p) v) /\ (s <> SUCCESS -> p' = p).
Proof.
  intros p lv x v H. destruct (is_unique_nonneg (p_n p) v H) as (b & E & Hb). destruct b.
  - destruct (add_accept p lv x (Some v) E) as (p' & E' & _). exists p', SUCCESS. split; auto. split; [tauto|congruence].
  - exists p, FAILURE. split; [apply add_reject; auto|]. split; auto. split; [discriminate|].
    intros HG. apply Hb in HG. discriminate.
Qed.

(** A negative index is an out-of-bounds write exactly when it is reached. *)
Theorem C18_negative_index : forall n x, IsUnique n x = UB <->
  exists pre z post, x = pre ++ z :: post /\ good_list n pre /\ (z < 0)%Z.
Proof. exact is_unique_ub. Qed.

Example C18_example :
  IsUnique 3 [2; 0; 1]%Z = Ok true /\ IsUnique 3 [2; 0; 2]%Z = Ok false /\
  IsUnique 3 [0; 3]%Z = Ok false /\ IsUnique 3 [1; -1; 0]%Z = UB /\
  (forall v, In v [2; 0; 1]%Z -> (0 <= v)%Z).
Proof. repeat split; try reflexivity. cbn. intros v H; lia. Qed.

Print Assumptions C18_validation.
Print Assumptions C18_acceptance.
Print Assumptions C18_negative_index.

(** ** C19: multipliers of equality constraints *)

Theorem C19_multipliers : forall n ks p rs,
  (0 < n \/ Forall (fun k => ~ sets_variables k) ks) -> api_run (new_program n) ks = Ok (p, rs) ->
  p_n p = n /\
  concat (p_duals p) = seq n (length (concat (p_duals p))) /\
  SizeOfKKTSystem p = n + length (concat (p_duals p)) /\
  length (p_duals p) = NumberOfConstraints p /\ length (p_cliques p) = NumberOfConstraints p /\
  (forall e, e < NumberOfConstraints p -> exists pre,
     nth e (p_cliques p) [] = pre ++ nth e (p_duals p) [] /\ NoDup pre /\ (forall v, In v pre -> v < n)) /\
  (forall e f v, In v (nth e (p_duals p) []) -> In v (nth f (p_duals p) []) -> e = f /\ n <= v < SizeOfKKTSystem p).
Proof.
  intros n ks p rs Hs E. pose proof (minv_run n ks _ _ _ (minv_new n) Hs E) as I.
  split; [apply I|]. split; [apply I|]. split; [apply minv_kkt; auto|]. split; [apply I|]. split; [apply I|].
  split; [apply I|]. intros e f v He Hf. split.
  - eapply concat_nodup_disjoint; eauto. eapply minv_nodup; eauto.
  - eapply minv_dual_ge; eauto.
Qed.

(** An accepted equality constraint gets one new multiplier per row. *)
Theorem C19_rows : forall n ks p rs A b vars p' s,
  (0 < n \/ Forall (fun k => ~ sets_variables k) ks) -> api_run (new_program n) ks = Ok (p, rs) ->
  AddConstraint p false (CEq A b) vars = Ok (p', s) -> s = SUCCESS ->
  p_duals p' = p_duals p ++ [seq (SizeOfKKTSystem p) (length A)].
Proof.
  intros n ks p rs A b vars p' s Hs E EA ->. pose proof (minv_run n ks _ _ _ (minv_new n) Hs E) as I.
  apply add_cases in EA as [(_ & _ & Ha)|(H & _)]; [|discriminate].
  apply appended_m in Ha as (_ & _ & _ & E4 & _). rewrite E4. cbn [new_duals].
  rewrite (mi_start _ _ I), (minv_kkt _ _ I). auto.
Qed.

(** The object the C interface creates, after the first call that sets the
    number of variables, is the object of the theorem above. *)
Theorem C19_created : forall n, (1 <= n)%Z ->
  api_step CONEX_CreateConeProgram (ASetNumberOfVariables n) =
  Ok (new_program (Z.to_nat n), mkReply SUCCESS None).
Proof.
  intros n H. cbn [api_step]. destruct (Z.leb_spec 1 n); [|lia]. reflexivity.
Qed.

Definition eq_calls : list call :=
  [PAddConstraint false (CEq [[1; 1]; [1; -1]]%R [1; 2]%R) None;
   PAddConstraint false (CEq [[1]]%R [1]%R) (Some [5%Z]);
   PAddConstraint false (CLinear 1 [[1]]%R [1]%R) (Some [1%Z]);
   PAddConstraint false (CEq [[3]]%R [4]%R) (Some [1%Z])].
Example C19_example : exists p rs, api_run (new_program 2) eq_calls = Ok (p, rs) /\
  map rp_return rs = [SUCCESS; FAILURE; SUCCESS; SUCCESS] /\
  p_duals p = [[2; 3]; []; [4]] /\ p_cliques p = [[0; 1; 2; 3]; [1]; [1; 4]] /\ SizeOfKKTSystem p = 5.
Proof. eexists _, _. split; [cbv -[Rplus Rmult IZR]; reflexivity|]. repeat split. Qed.

(** Without the order of calls required above, a multiplier can coincide with a
    variable; only C calls are used. *)
Definition early_equality : list call :=
  [AAddLinearInequalities 1 [([1], 1, 1)]%R; ASetNumberOfVariables 2].
Theorem C19_early_equality_refuted : exists p rs e v,
  api_run CONEX_CreateConeProgram early_equality = Ok (p, rs) /\
  In v (nth e (p_duals p) []) /\ v < p_n p.
Proof.
  unfold early_equality. cbn [api_run api_step].
  assert (exists s, PreprocessLinearInequality [([1], 1, 1)]%R = Some s /\ sp_ineq s = [] /\ exists r, sp_eq s = [r]) as (s & -> & H1 & r & H2).
  { unfold PreprocessLinearInequality, preprocess, preprocess_row, row_scale.
    destruct (Req_EM_T 1 1) as [_|]; [|tauto].
    destruct (Rlt_dec 0 _) as [_|H]; [|exfalso; apply H; unfold squared_norm; cbn [fold_left]; lra].
    eexists; split; [reflexivity|]. cbn. eauto. }
  rewrite H1, H2. eexists _, _, 0, 0. split; [reflexivity|]. split; [left; reflexivity|cbn; lia].
Qed.

(** An equality constraint passed as an lvalue gets no multipliers. *)
Theorem C19_lvalue_refuted : exists p A b p',
  AddConstraint p true (CEq A b) None = Ok (p', SUCCESS) /\ 0 < length A /\
  p_duals p' = p_duals p ++ [[]].
Proof.
  exists (new_program 1), [[1%R]], [1%R]. eexists. split; [reflexivity|]. cbn. split; [lia|auto].
Qed.

Print Assumptions C19_multipliers.
Print Assumptions C19_rows.
Print Assumptions C19_created.
Print Assumptions C19_early_equality_refuted.
Print Assumptions C19_lvalue_refuted.

(** ** C20: identifiers keep denoting the same constraint *)

Theorem C20_constraints_persist : forall ks p p' rs, api_run p ks = Ok (p', rs) ->
  NumberOfConstraints p <= NumberOfConstraints p' /\
  (forall i c, nth_error (p_cliques p) i = Some c -> nth_error (p_cliques p') i = Some c) /\
  (forall i c, nth_error (p_duals p) i = Some c -> nth_error (p_duals p') i = Some c) /\
  (forall i ct, nth_error (p_eqs p) i = Some ct -> exists ct',
     nth_error (p_eqs p') i = Some ct' /\ ct_vars ct' = ct_vars ct /\
     same_shape (ct_data ct) (ct_data ct') /\ (Exists (names i) ks \/ ct' = ct)).
Proof. intros ks p p' rs E. apply run_kept in E as [H1 H2 H3 _ H5]. auto. Qed.

(** A call that reports failure changes nothing. *)
Theorem C20_failure_is_noop : forall p k p' r, returns_status k -> api_step p k = Ok (p', r) ->
  rp_return r <> SUCCESS -> p' = p.
Proof. exact step_failure. Qed.

Example C20_example : exists p rs,
  api_run (new_program 2)
    [ANewLinearInequality 1 false; ANewLorentzCone 2 false; AUpdateAffineTerm 0 5 0 0 0;
     AUpdateAffineTerm 1 7 9 0 0; ANewLMI 0 1 false] = Ok (p, rs) /\
  map rp_return rs = [SUCCESS; SUCCESS; SUCCESS; FAILURE; FAILURE] /\
  map ct_data (p_eqs p) = [CLinear 2 [[0; 0]]%R [5]%R; CSoc 2 [] []].
Proof. eexists _, _. split; [cbv -[Rplus Rmult IZR]; reflexivity|]. repeat split. Qed.

(** The quadratic-cost call reports success for a matrix it cannot add: nothing
    is added, and the program is marked as having quadratic costs. *)
Theorem C20_quadratic_cost_refuted : exists p A p' r,
  api_step p (AAddQuadraticCost 2 A) = Ok (p', r) /\ rp_return r = SUCCESS /\
  NumberOfConstraints p' = NumberOfConstraints p /\ p_quadratic p = false /\ p_quadratic p' = true.
Proof.
  exists (new_program 1), [[1; 0]; [0; 1]]%R.
  cbn [api_step]. unfold NonZeroSubMat, nonzero_vars. cbn [length Nat.ltb Nat.leb seq filter nth].
  destruct (Rlt_dec 0 1) as [_|H]; [|exfalso; lra].
  eexists _, _. split; [reflexivity|]. repeat split.
Qed.

Print Assumptions C20_constraints_persist.
Print Assumptions C20_failure_is_noop.
Print Assumptions C20_quadratic_cost_refuted.

(** ** C21: edit calls before and after a solve *)

Theorem C21_before_solve : forall n ks p rs k, Forall (fun k => ~ is_solve k) ks ->
  api_run (new_program n) ks = Ok (p, rs) -> well_formed p k ->
  exists p' id, api_step p k = Ok (p', mkReply SUCCESS id).
Proof.
  intros n ks p rs k HF E HW. apply guarded_success; auto. apply fresh_cast.
  eapply run_fresh; eauto. repeat split.
Qed.

(** After an initialisation [length (p_kkt p)] constraints are bound; the guarded
    calls fail without effect unless exactly as many constraints were added
    since. *)
Theorem C21_after_solve : forall n ks p rs k, api_run (new_program n) ks = Ok (p, rs) ->
  p_init p = true -> guarded k -> NumberOfConstraints p <> 2 * length (p_kkt p) ->
  api_step p k = Ok (p, mkReply FAILURE None).
Proof.
  intros n ks p rs k E Hi HG Hn. apply guarded_failure; auto.
  destruct (run_state ks _ _ _ (new_state n) E) as [(H & _)|(m & HB)]; [congruence|].
  rewrite (bound_cast _ _ HB). destruct HB as (_ & _ & _ & _ & Hk & _). rewrite Hk, seq_length in Hn.
  apply Nat.eqb_neq. auto.
Qed.

(** In particular right after a cold solve of a program with constraints. *)
Theorem C21_right_after_solve : forall n ks p rs c o p' r k, api_run (new_program n) ks = Ok (p, rs) ->
  0 < NumberOfConstraints p -> quadratic_precondition p (APIConvertSolverConfiguration c) = true ->
  a_initialization_mode c = 0%Z ->
  api_step p (ASolve c o) = Ok (p', r) -> guarded k ->
  api_step p' k = Ok (p', mkReply FAILURE None).
Proof.
  intros n ks p rs c o p' r k E HN HQ HM ES HG. cbn [api_step] in ES.
  apply bind_ok in ES as ([q s] & ES & EE). injection EE as <- <-.
  apply Solve_program_mgr in ES as HM'. destruct HM' as (HM' & _). mgr_eq HM'.
  apply Solve_state in ES as (_ & ES); [|eapply run_state; [apply new_state|eauto]].
  destruct (ES HQ HN) as (m & HB & Hm). apply guarded_failure; auto.
  rewrite (bound_cast _ _ HB). rewrite Hm by (right; auto).
  unfold NumberOfConstraints in *. apply Nat.eqb_neq.
  match goal with H : p_eqs q = p_eqs p |- _ => rewrite H end. lia.
Qed.

Definition some_options : api_config :=
  CONEX_SetDefaultOptions (mkApi 0 0 0 0 0 0 0 0 0 0 0 0 0 0 0 0 0 0 0).
Definition some_outcome : solve_outcome := mkOutcome 1 (mkStatus true 3 false false) (Some 3).

Example C21_example : exists p rs,
  api_run (new_program 2)
    [ANewLinearInequality 1 false; AUpdateAffineTerm 0 1 0 0 0; ASolve some_options some_outcome;
     AUpdateAffineTerm 0 2 0 0 0; ANewLorentzCone 2 false] = Ok (p, rs) /\
  map rp_return rs = [SUCCESS; SUCCESS; 1%Z; FAILURE; FAILURE] /\
  p_init p = true /\ NumberOfConstraints p = 1 /\ p_kkt p = [0].
Proof. eexists _, _. split; [cbv -[Rplus Rmult IZR Rdiv Rinv pow]; reflexivity|]. repeat split. Qed.

(** "Every guarded call after a solve fails" is false: adding as many constraints
    again through unguarded calls makes the check pass. *)
Theorem C21_always_fails_refuted : exists ks p rs k p' id,
  api_run (new_program 1) ks = Ok (p, rs) /\ p_init p = true /\ guarded k /\
  api_step p k = Ok (p', mkReply SUCCESS id).
Proof.
  exists [ANewLinearInequality 1 false; ASolve some_options some_outcome; AAddDenseLinear 1 [[1]]%R [1]%R].
  eexists _, _, (ANewLorentzCone 2 false), _, _.
  split; [cbv -[Rplus Rmult IZR Rdiv Rinv pow]; reflexivity|]. split; [reflexivity|]. split; [cbn; auto|].
  cbv -[Rplus Rmult IZR Rdiv Rinv pow]; reflexivity.
Qed.

Print Assumptions C21_before_solve.
Print Assumptions C21_after_solve.
Print Assumptions C21_right_after_solve.
Print Assumptions C21_always_fails_refuted.

(** ** C22: identifiers returned by the creating calls *)

Theorem C22_identifier : forall n ks p rs k x p' r i, api_run (new_program n) ks = Ok (p, rs) ->
  creates (p_n p) k = Some x -> api_step p k = Ok (p', r) -> identifier k r = Some i ->
  good_list (p_n p) (created_on (p_n p) k) ->
  exists j, i = Z.of_nat j /\ j = NumberOfConstraints p /\ NumberOfConstraints p' = S j /\
    nth_error (p_eqs p') j = Some (mkCont x (length (created_on (p_n p) k))) /\
    nth_error (p_cliques p') j = Some (map Z.to_nat (created_on (p_n p) k)).
Proof.
  intros n ks p rs k x p' r i E Hc Es Hi HG. eapply identifier_new; eauto.
  - eapply lens_run; [|eauto]. split; auto.
  - intros m As C v ->. exact HG.
Qed.

Example C22_example : exists p rs,
  api_run (new_program 2) [ANewLorentzCone 2 false; AAddSparseLMI 1 [[[1]]]%R [[0]]%R [1%Z]; ANewLMI 2 4 false] = Ok (p, rs) /\
  map rp_id rs = [Some 0; None; Some 2]%Z /\ map rp_return rs = [0; 1; 0]%Z /\
  p_cliques p = [[0; 1]; [1]; [0; 1]].
Proof. eexists _, _. split; [cbv -[Rplus Rmult IZR]; reflexivity|]. repeat split. Qed.

(** The sparse LMI call returns an identifier also for a rejected list; the next
    constraint has the same identifier. *)
Theorem C22_sparse_lmi_refuted : exists k1 k2 p rs r1 r2,
  api_run (new_program 1) [k1; k2] = Ok (p, rs) /\ rs = [r1; r2] /\
  identifier k1 r1 = Some 0%Z /\ identifier k2 r2 = Some 0%Z /\
  creates 1 k1 <> creates 1 k2 /\ option_map ct_data (nth_error (p_eqs p) 0) = creates 1 k2.
Proof.
  exists (AAddSparseLMI 1 [[[1]]]%R [[0]]%R [1%Z]), (ANewLorentzCone 2 false). eexists _, _, _, _.
  split; [cbv -[Rplus Rmult IZR]; reflexivity|]. repeat split. discriminate.
Qed.

Print Assumptions C22_identifier.
Print Assumptions C22_sparse_lmi_refuted.

(** ** C23: the linear cost *)

Theorem C23_linear_cost : forall n ks p rs,
  (0 < n \/ Forall (fun k => ~ sets_variables k) ks) -> api_run (new_program n) ks = Ok (p, rs) ->
  length (p_cost p) = n /\
  forall i, i < n -> nth i (p_cost p) 0%R = component_sum i (costs_since_clear n ks).
Proof.
  intros n ks p rs Hs E. exact (cost_run n ks _ [] _ _ (minv_new n) (cost_new n) Hs E).
Qed.

Example C23_example :
  let ks := [PAddLinearCost [9; 9]; PClearLinearCosts; PAddLinearCost [1; 2]; PAddLinearCost [5]; PAddLinearCost [10; 20]]%R in
  exists p rs, api_run (new_program 2) ks = Ok (p, rs) /\ nth 1 (p_cost p) 0%R = 22%R /\
    costs_since_clear 2 ks = [[1; 2]; [10; 20]]%R.
Proof.
  eexists _, _. split; [cbv -[Rplus Rmult IZR]; reflexivity|]. split; [cbn [p_cost nth]; lra|reflexivity].
Qed.

(** The returned value does not tell a rejected cost from an accepted one. *)
Theorem C23_status_refuted : exists p bad good p',
  length bad <> p_n p /\ length good = p_n p /\ p' <> p /\
  api_step p (PAddLinearCost bad) = Ok (p, mkReply 1 None) /\
  api_step p (PAddLinearCost good) = Ok (p', mkReply 1 None).
Proof.
  exists (new_program 1), [1; 2]%R, [1]%R. eexists. split; [cbn; lia|]. split; [reflexivity|].
  split; [|split; reflexivity]. intros H. apply (f_equal p_cost) in H. cbn [p_cost set_cost vadd new_program SetNumberOfVariables repeat] in H.
  injection H as H. lra.
Qed.

Print Assumptions C23_linear_cost.
Print Assumptions C23_status_refuted.

(** ** C24: coefficient updates *)

Theorem C24_updates : forall l o, well_sized o -> Forall (in_range o) l ->
  exists o' ss, send_all o l = Ok (o', ss) /\
    Forall2 (fun w s => (s = SUCCESS \/ s = FAILURE) /\ (s = SUCCESS <-> acceptable o w)) l ss /\
    same_shape o o' /\ well_sized o' /\
    (forall q, has_place o q -> value_at o' q = last_accepted o q (combine l ss) (value_at o q)) /\
    (hermitian o -> hermitian o').
Proof. exact send_all_correct. Qed.

(** A rejected request changes nothing, in or out of range. *)
Theorem C24_rejected_is_noop : forall o w o' s, send o w = Ok (o', s) -> s <> SUCCESS -> o' = o.
Proof.
  intros o w o' s E Hs. unfold send in E. destruct (w_var w).
  - apply update_lin_spec in E as (_ & [H|[_ H]]); [congruence|auto].
  - apply update_aff_spec in E as (_ & [H|[_ H]]); [congruence|auto].
Qed.

Definition herm_writes : list write :=
  [mkWrite (Some 1%Z) 5 0 1 1; mkWrite (Some 1%Z) 7 1 0 1; mkWrite (Some 0%Z) 3 1 1 1; mkWrite None 4 0 1 0].
Example C24_example :
  let o := CHerm 2 2 [] [] in
  well_sized o /\ hermitian o /\ Forall (in_range o) herm_writes /\
  has_place o (mkPlace (Some 1) 0 1 1) /\
  exists o', send_all o herm_writes = Ok (o', [0; 0; 1; 0]%Z) /\
    value_at o' (mkPlace (Some 1) 0 1 1) = (-7)%R /\ value_at o' (mkPlace (Some 1) 1 0 1) = 7%R /\
    value_at o' (mkPlace None 1 0 0) = 4%R.
Proof.
  cbv zeta. split.
  { cbn. intros M [[]|[-> []]]; auto. }
  split.
  { cbn. intros [v|] r c d _ _ _; unfold value_at; cbn.
    - destruct v, d, c, r; cbn; try lra; destruct c; try destruct r; try destruct d; cbn; lra.
    - destruct d, c, r; cbn; try lra; destruct c; try destruct r; try destruct d; cbn; lra. }
  split.
  { unfold herm_writes. repeat apply Forall_cons; try apply Forall_nil; unfold in_range; cbn;
      (split; [lia|]); (split; [lia|]); (split; [lia|]); intros v H; try discriminate; injection H as <-; split; auto; lia. }
  split; [cbn; lia|].
  unfold herm_writes, send_all, send, UpdateLinearOperator, UpdateAffineTerm, herm_demands.
  cbn [w_var w_val w_r w_c w_dim].
  destruct (Req_EM_T 5 0) as [H|_]; [exfalso; lra|]. destruct (Req_EM_T 7 0) as [H|_]; [exfalso; lra|].
  destruct (Req_EM_T 3 0) as [H|_]; [exfalso; lra|]. destruct (Req_EM_T 4 0) as [H|_]; [exfalso; lra|].
  eexists. split; [cbv -[Ropp Rplus Rmult IZR]; reflexivity|].
  unfold value_at; cbn [pl_var pl_r pl_c pl_dim nth]. repeat split; lra.
Qed.

(** Requests the code does not validate: a linear inequality asked about a
    variable it does not have, negative indices of a quadratic cost or of an LMI
    entry are out-of-bounds writes. *)
Theorem C24_linear_column_out_of_bounds : forall m A b val v r,
  (Z.of_nat m <= v)%Z -> (0 <= r < Z.of_nat (length A))%Z ->
  UpdateLinearOperator (CLinear m A b) val v r 0 0 = UB.
Proof. exact linear_out_of_columns. Qed.
Theorem C24_quadratic_negative_out_of_bounds : forall Q val r c,
  (r < Z.of_nat (length Q))%Z -> (c < Z.of_nat (length (nth 0 Q [])))%Z -> (r < 0 \/ c < 0)%Z ->
  UpdateAffineTerm (CQuad Q) val r c 0 = UB.
Proof. exact quad_negative. Qed.
Theorem C24_lmi_negative_out_of_bounds : forall h rk As C val v r c d,
  (0 <= v)%Z -> (0 <= d < Z.of_nat h)%Z -> (r < Z.of_nat rk)%Z -> (c < Z.of_nat rk)%Z -> r <> c ->
  (r < 0 \/ c < 0)%Z -> UpdateLinearOperator (CHerm h rk As C) val v r c d = UB.
Proof. exact herm_negative_entry. Qed.
Example C24_out_of_bounds_example :
  UpdateLinearOperator (CLinear 2 [[1; 2]]%R [3]%R) 5 2 0 0 0 = UB /\
  UpdateAffineTerm (CQuad [[1; 2]; [3; 4]]%R) 5 (-1) 1 0 = UB /\
  UpdateLinearOperator (CHerm 1 2 [] []) 5 0 (-1) 1 0 = UB.
Proof.
  split; [apply linear_out_of_columns; cbn; lia|]. split; [apply quad_negative; cbn; lia|].
  apply herm_negative_entry; lia.
Qed.

Print Assumptions C24_updates.
Print Assumptions C24_rejected_is_noop.
Print Assumptions C24_linear_column_out_of_bounds.
Print Assumptions C24_quadratic_negative_out_of_bounds.
Print Assumptions C24_lmi_negative_out_of_bounds.

(** ** C25: options *)

Theorem C25_conversion : forall c, let d := APIConvertSolverConfiguration c in
  prepare_dual_variables d = a_prepare_dual_variables c /\
  initialization_mode d = a_initialization_mode c /\
  inv_sqrt_mu_max d = a_inv_sqrt_mu_max c /\ minimum_mu d = a_minimum_mu c /\
  maximum_mu d = a_maximum_mu c /\ divergence_upper_bound d = a_divergence_upper_bound c /\
  enable_line_search d = a_enable_line_search c /\ dinf_upper_bound d = a_dinf_upper_bound c /\
  final_centering_steps d = a_final_centering_steps c /\
  final_centering_tolerance d = a_final_centering_tolerance c /\
  initial_centering_steps_warmstart d = a_initial_centering_steps_warmstart c /\
  initial_centering_steps_coldstart d = a_initial_centering_steps_coldstart c /\
  warmstart_abort_threshold d = a_warmstart_abort_threshold c /\
  max_iterations d = a_max_iterations c /\ infeasibility_threshold d = a_infeasibility_threshold c /\
  kkt_error_tolerance d = a_kkt_error_tolerance c /\ kkt_solver d = a_kkt_solver c /\
  enable_rescaling d = a_enable_rescaling c /\
  iterative_refinement_iterations d = a_iterative_refinement_iterations c.
Proof. intros c. cbv zeta. repeat split. Qed.

(** After setting defaults, the converted options are the solver's defaults in
    every field but the two that are not assigned. *)
Theorem C25_defaults : forall c,
  APIConvertSolverConfiguration (CONEX_SetDefaultOptions c) =
  mkConfig 0 0 1000 (/ 10 ^ 15) (10 ^ 4) 1 0 1 5 (1 / 100) 0 0 2 25 (10 ^ 5) (10 ^ 10)
    (a_kkt_solver c) 1 (a_iterative_refinement_iterations c).
Proof. reflexivity. Qed.

Theorem C25_defaults_refuted : exists c,
  APIConvertSolverConfiguration (CONEX_SetDefaultOptions c) <> default_config.
Proof.
  exists (mkApi 0 0 0 0 0 0 0 0 0 0 0 0 0 0 3 0 0 0 7). intros H. apply (f_equal kkt_solver) in H. discriminate.
Qed.

Example C25_example :
  kkt_solver (APIConvertSolverConfiguration (CONEX_SetDefaultOptions (mkApi 9 9 9 9 9 9 9 9 9 9 9 9 9 9 3 9 9 9 7))) = 7%Z /\
  max_iterations (APIConvertSolverConfiguration (CONEX_SetDefaultOptions (mkApi 9 9 9 9 9 9 9 9 9 9 9 9 9 9 3 9 9 9 7))) = 25%Z.
Proof. split; reflexivity. Qed.

Print Assumptions C25_conversion.
Print Assumptions C25_defaults.
Print Assumptions C25_defaults_refuted.

(** ** C50: every program that can be built can be initialised *)

(** Any program reached by API calls whose first constraint involves at least one
    variable or multiplier is accepted by the KKT solver's analysis, whatever
    the other constraints are; all its column indices are below the KKT size. *)
Theorem C50_initialisation : forall n ks p rs cold it,
  (0 < n \/ Forall (fun k => ~ sets_variables k) ks) -> api_run (new_program n) ks = Ok (p, rs) ->
  nth 0 (p_cliques p) [] <> [] ->
  (exists p', Initialize p cold it = Ok p') /\
  admissible (p_cliques p) (p_duals p) /\
  (forall c v, In c (p_cliques p) -> In v c -> v < SizeOfKKTSystem p).
Proof.
  intros n ks p rs cold it Hs E H0. pose proof (minv_run n ks _ _ _ (minv_new n) Hs E) as I.
  split; [eapply Initialize_total; eauto|]. split; [eapply minv_admissible; eauto|].
  intros. eapply minv_range; eauto.
Qed.

(** With an empty first constraint, the first solve throws. *)
Theorem C50_empty_first_constraint : forall n ks p rs it,
  (0 < n \/ Forall (fun k => ~ sets_variables k) ks) -> api_run (new_program n) ks = Ok (p, rs) ->
  0 < NumberOfConstraints p -> nth 0 (p_cliques p) [] = [] -> Initialize p true it = Throw.
Proof.
  intros n ks p rs it Hs E HN H0. pose proof (minv_run n ks _ _ _ (minv_new n) Hs E) as I.
  eapply Initialize_throws; eauto. apply orb_true_r.
Qed.

Example C50_example : exists p rs,
  api_run (new_program 3) [PAddConstraint false (CLinear 2 [[1; 1]]%R [1]%R) (Some [2; 0]%Z);
                           PAddConstraint false (CEq [[1]]%R [1]%R) (Some [1%Z]);
                           PAddConstraint false (CLinear 0 [] []) (Some [])] = Ok (p, rs) /\
  nth 0 (p_cliques p) [] <> [] /\ p_cliques p = [[2; 0]; [1; 3]; []].
Proof. eexists _, _. split; [cbv -[Rplus Rmult IZR]; reflexivity|]. split; [discriminate|reflexivity]. Qed.
Example C50_throw_example : exists p rs,
  api_run (new_program 3) [PAddConstraint false (CLinear 0 [] []) (Some [])] = Ok (p, rs) /\
  0 < NumberOfConstraints p /\ nth 0 (p_cliques p) [] = [] /\ Initialize p true 5 = Throw.
Proof. eexists _, _. split; [cbv -[Rplus Rmult IZR]; reflexivity|]. repeat split. cbn. lia. Qed.

Print Assumptions C50_initialisation.
Print Assumptions C50_empty_first_constraint.
