(** Property C66: solves of programs with real symmetric, complex Hermitian and
    quaternion Hermitian semidefinite constraints. *)
From Coq Require Import List Arith ZArith Reals Bool Lia Lra.
From Verif Require Import Base BaseFacts LayoutModel SupernodeModel TriWorkspaceModel AssemblerModel KktModel ProgramModel ApiModel DivergenceModel
  SolveModel LinearModel ConcreteBackend Spec_Linear Spec_Assembly Spec_Program Spec_Solve Spec_Conex Spec_Semidefinite
  SolveProofs SolveFacts SolveStats Prop_Solve ConexFacts ConexStep LineSearchFacts ConexKkt ConexBlocks ConexResult ConexGap ConexOutcome ConexDefinite ConexTotal
  ConexBuilt ToyBackend ConexRun HermEstimate HermRun Prop_Conex.
From Verif Require Spec_Hyper LanczosModel JordanModel DenseModel Prop_Cones.
Import ListNotations.
Open Scope R_scope.

(** ** Complementarity *)

(** [X] are the dual variables of the last iteration, [D] the components of its
    direction.  For every Hermitian constraint the dual variable is
    [2 V - t V S V] for a positive definite [V], the inner product of slack and dual
    is [mu (m - |d|^2)], and slack and dual are positive semidefinite if the direction
    is not longer than one or if the reported norm is at most one and was estimated
    accurately. *)
Theorem C66_complementarity : forall nf p n c r y e bs cs, handed_back nf p n c r y e -> scalings (rt_prog _ r) (rt_num _ r) bs cs ->
  rectangular p -> on_costs p -> conic_only p ->
  exists X D,
    (forall u, (u < SizeOfKKTSystem p)%nat -> gradient p X [] 0 u = - nth u (p_cost p) 0) /\
    (forall i co h m As C, nth_error (p_eqs p) i = Some co -> ct_data co = CHerm h m As C ->
      let S := herm_slack As C (nth i (p_cliques p) []) y in let Y := listed_matrix m (X i) in let mu := 1 / (en_ism e * en_ism e) in
      length (X i) = (h * m * m)%nat /\ scaled_pair h m (bs * cs / mu) S Y /\
      herm_inner h m S Y = mu * (INR m - square_sum (nth i D [])) / (bs * cs) /\
      (square_sum (nth i D []) <= 1 -> herm_psd h m S /\ herm_psd h m Y) /\
      (square_sum (nth i D []) < 1 -> herm_pd h m S /\ herm_pd h m Y) /\
      forall eps, 0 <= eps -> accurate eps (env_estimate nf) ->
        (en_dinf e + eps <= 1 -> herm_psd h m S /\ herm_psd h m Y) /\
        (en_dinf e + eps < 1 -> nonzero h m S -> herm_pd h m S /\ herm_pd h m Y)) /\
    length D = length (p_eqs p) /\
    linear_cost p y + dual_value p X = 1 / (en_ism e * en_ism e) * (inequalities p - squares p D) / (bs * cs).
Proof.
  intros nf p n c r y e bs cs H HS HR HC HO. destruct (outcome_conic_gap _ _ _ _ _ _ _ _ _ H HS HR HC HO) as (X & D & H1 & _ & _ & H4 & H5 & H6).
  exists X, D. auto.
Qed.

(** ** Suboptimality *)

(** Whatever the estimates: the point is compared with every feasible point once the
    dual matrices are known to be positive semidefinite. *)
Theorem C66_suboptimality : forall nf p n c r y e bs cs, handed_back nf p n c r y e -> scalings (rt_prog _ r) (rt_num _ r) bs cs ->
  rectangular p -> sized_equalities p -> on_costs p -> convex p -> prepare_dual_variables c = 0%Z ->
  exact_pivots p (nm_bk (rt_num _ r)) -> en_dinf e <= 1 ->
  let mu := 1 / (en_ism e * en_ism e) in
  exists (q : nat -> R) (X : nat -> nat -> nat -> nat -> R),
    (forall i co h m As C, nth_error (p_eqs p) i = Some co -> ct_data co = CHerm h m As C ->
      let S := herm_slack As C (nth i (p_cliques p) []) y in
      0 <= q i /\ scaled_pair h m (bs * cs / mu) S (X i) /\ herm_inner h m S (X i) = mu * (INR m - q i) / (bs * cs) /\
      (q i <= 1 -> herm_psd h m S /\ herm_psd h m (X i)) /\ (q i < 1 -> herm_pd h m S /\ herm_pd h m (X i)) /\
      forall eps, 0 <= eps -> accurate eps (env_estimate nf) ->
        (en_dinf e + eps <= 1 -> herm_psd h m S /\ herm_psd h m (X i)) /\
        (en_dinf e + eps < 1 -> nonzero h m S -> herm_pd h m S /\ herm_pd h m (X i))) /\
    forall z, (forall i co h m As C, nth_error (p_eqs p) i = Some co -> ct_data co = CHerm h m As C -> herm_psd h m (X i)) -> feasible p z ->
      objective p (cs / bs) y <= objective p (cs / bs) z + inequalities p * mu / (bs * cs).
Proof. exact outcome_semidefinite. Qed.

(** With estimates that are accurate up to [eps] the reported norm certifies the
    point: all matrix slacks are positive semidefinite, and no feasible point is
    better by more than [inequalities p * mu]. *)
Theorem C66_accurate : forall nf p n c r y e bs cs eps, handed_back nf p n c r y e -> scalings (rt_prog _ r) (rt_num _ r) bs cs ->
  rectangular p -> sized_equalities p -> on_costs p -> convex p -> prepare_dual_variables c = 0%Z ->
  exact_pivots p (nm_bk (rt_num _ r)) -> 0 <= eps -> accurate eps (env_estimate nf) -> en_dinf e + eps <= 1 ->
  (forall i co h m As C, nth_error (p_eqs p) i = Some co -> ct_data co = CHerm h m As C ->
     let S := herm_slack As C (nth i (p_cliques p) []) y in
     herm_psd h m S /\ (en_dinf e + eps < 1 -> nonzero h m S -> herm_pd h m S)) /\
  forall z, feasible p z ->
    objective p (cs / bs) y <= objective p (cs / bs) z + inequalities p * (1 / (en_ism e * en_ism e)) / (bs * cs).
Proof.
  intros nf p n c r y e bs cs eps H HS HR HE HO HC Hd HX He HA Hn.
  destruct (outcome_semidefinite nf p n c r y e bs cs H HS HR HE HO HC Hd HX ltac:(lra)) as (q & X & H1 & H2). split.
  - intros i co h m As C Hi Ed. destruct (H1 i co h m As C Hi Ed) as (_ & _ & _ & _ & _ & K). destruct (K eps He HA) as [K1 K2].
    split; [apply K1; auto|]. intros L1 L2. apply K2; auto.
  - intros z Hz. apply H2; auto. intros i co h m As C Hi Ed. destruct (H1 i co h m As C Hi Ed) as (_ & _ & _ & _ & _ & K).
    destruct (K eps He HA) as [K1 _]. apply K1; auto.
Qed.

(** A reported success implies feasibility of the matrix constraints if the options
    rule out the exit after the final centering steps and leave room for the error
    of the estimates. *)
Theorem C66_solved_is_feasible : forall nf p n c r y e bs cs eps, handed_back nf p n c r y e -> scalings (rt_prog _ r) (rt_num _ r) bs cs ->
  rectangular p -> sized_equalities p -> on_costs p -> convex p -> prepare_dual_variables c = 0%Z ->
  exact_pivots p (nm_bk (rt_num _ r)) -> 0 <= eps -> accurate eps (env_estimate nf) ->
  st_solved (p_status (rt_prog _ r)) = true -> final_centering_tolerance c + eps <= 1 -> (max_iterations c - 1 <= final_centering_steps c)%Z ->
  forall i co h m As C, nth_error (p_eqs p) i = Some co -> ct_data co = CHerm h m As C -> herm_psd h m (herm_slack As C (nth i (p_cliques p) []) y).
Proof.
  intros nf p n c r y e bs cs eps H HS HR HE HO HC Hd HX He HA H6 H7 H8 i co h m As C Hi Ed.
  pose proof (C31_status (conex (mode_of nf c) nf) p n c r (hb_starts _ _ _ _ _ _ _ H) (hb_solve _ _ _ _ _ _ _ H)) as (_ & _ & _ & HQ & _).
  destruct (HQ H6) as (e' & t & E1 & E2 & E3 & [[E4 _]|E4]); [|lia]. destruct (hb_entry _ _ _ _ _ _ _ H) as (t' & Et). rewrite E1 in Et. injection Et as -> _.
  destruct (C66_accurate nf p n c r y e bs cs eps H HS HR HE HO HC Hd HX He HA ltac:(lra)) as [K _]. destruct (K i co h m As C Hi Ed) as [K1 _]. exact K1.
Qed.

(** *** Examples *)

Lemma lmi_convex b : convex (lmi_program b).
Proof. intros [|[|]] co Q z Hc HQ; try discriminate; injection Hc as <-; discriminate. Qed.
Lemma lmi_exact b st : exact_pivots (lmi_program b) st.
Proof. left. intros dv [<-|[]]. reflexivity. Qed.
Lemma norm_from_centered s : 0 <= s -> LanczosModel.norm_from 1 (-1 - s) (-1 + s) = s.
Proof.
  intros H. unfold LanczosModel.norm_from. replace (1 + (-1 - s)) with (- s) by ring. replace (1 + (-1 + s)) with s by ring.
  rewrite Rabs_Ropp, Rabs_pos_eq by auto. destruct (Rlt_dec s s); lra.
Qed.
(** Estimates from traces are within the bound for small costs. *)
Lemma lmi_tame_trace f g b : b * b <= / 50 -> lmi_tame (mkEnv f trace_estimate g) (5 * b).
Proof.
  intros Hb draws. cbn [env_estimate]. unfold trace_estimate. cbv beta iota zeta.
  assert (JordanModel.trace0 2 (lmi_WS (5 * b)) / INR 2 = -1) as ->.
  { unfold JordanModel.trace0. cbn [DenseModel.rsum]. rewrite !lmi_WS_entries by lia. cbn. lra. }
  assert (JordanModel.trace0 2 (JordanModel.Multiply 2 2 (lmi_WS (5 * b)) (lmi_WS (5 * b))) = 2 + 50 * (b * b)) as ->.
  { unfold JordanModel.trace0, JordanModel.Multiply, JordanModel.multiply_step, JordanModel.rprod. cbn [DenseModel.for_up seq fold_left DenseModel.rsum].
    rewrite !lmi_WS_entries by lia. cbn. unfold JordanModel.Zero. ring. }
  replace (2 + 50 * (b * b) - INR 2 * -1 * -1) with (50 * (b * b)) by (cbn; ring).
  rewrite norm_from_centered by apply sqrt_pos. rewrite <- sqrt_1. apply sqrt_le_1_alt. lra.
Qed.
(** The slack at a point, as a matrix of complex numbers. *)
Lemma lmi_slack_form y z : Spec_Hyper.form (A := Spec_Hyper.cd 1) 2 (Spec_Hyper.matrix_of 1 (herm_slack lmi_A lmi_c [0%nat] [y])) z =
  / 10 * (fst (z 0%nat) * fst (z 0%nat) + snd (z 0%nat) * snd (z 0%nat) + fst (z 1%nat) * fst (z 1%nat) + snd (z 1%nat) * snd (z 1%nat)) +
  2 * y * (fst (z 0%nat) * snd (z 1%nat) - snd (z 0%nat) * fst (z 1%nat)).
Proof.
  unfold Spec_Hyper.form, Spec_Hyper.matrix_of, herm_slack, component, total. cbn. destruct (z 0%nat) as [a b], (z 1%nat) as [a' b']. cbn. field.
Qed.
Lemma lmi_slack_psd y : - / 10 <= y <= / 10 -> herm_psd 2 2 (herm_slack lmi_A lmi_c [0%nat] [y]).
Proof.
  intros Hy. exists 1%nat. split; [lia|]. split; [reflexivity|]. split.
  - intros [|[|r]] [|[|c]] Hr Hc; try lia; unfold Spec_Hyper.mconj, Spec_Hyper.matrix_of, herm_slack, component, total; cbn; f_equal; lra.
  - intros z. rewrite lmi_slack_form. destruct (z 0%nat) as [a b], (z 1%nat) as [a' b']. cbn [fst snd].
    pose proof (Rle_0_sqr (a - b')) as H1. pose proof (Rle_0_sqr (a + b')) as H2. pose proof (Rle_0_sqr (b - a')) as H3. pose proof (Rle_0_sqr (b + a')) as H4.
    unfold Rsqr in *. assert (0 <= (/ 10 - y) * ((a - b') * (a - b') + (b + a') * (b + a'))) by (apply Rmult_le_pos; lra).
    assert (0 <= (/ 10 + y) * ((a + b') * (a + b') + (b - a') * (b - a'))) by (apply Rmult_le_pos; lra). lra.
Qed.
Lemma lmi_slack_not_psd y : / 10 < y -> ~ herm_psd 2 2 (herm_slack lmi_A lmi_c [0%nat] [y]).
Proof.
  intros Hy ([|[|k]] & _ & Ek & _ & H); [discriminate| |cbn in Ek; lia].
  specialize (H (fun r => if (r =? 0)%nat then (1, 0) else (0, -1))). rewrite lmi_slack_form in H. cbn in H. lra.
Qed.

(** Maximise [y / 10] subject to [[1/10, -iy; iy, 1/10] >= 0], with estimates from
    traces, compared with [y = 1/12]; the bound is [2 mu = 2/100]. *)
Example C66_example : forall f g n, exists r y e bs cs, let nf := mkEnv f trace_estimate g in let p := lmi_program (/ 10) in let c := line_config 0 4 5 1 in
  handed_back nf p n c r y e /\ scalings (rt_prog _ r) (rt_num _ r) bs cs /\ rectangular p /\ sized_equalities p /\ on_costs p /\ conic_only p /\ convex p /\
  prepare_dual_variables c = 0%Z /\ exact_pivots p (nm_bk (rt_num _ r)) /\ accurate 0 (env_estimate nf) /\ en_dinf e + 0 <= 1 /\
  (exists co, nth_error (p_eqs p) 0 = Some co /\ ct_data co = CHerm 2 2 lmi_A lmi_c) /\
  st_solved (p_status (rt_prog _ r)) = true /\ final_centering_tolerance c + 0 <= 1 /\ (max_iterations c - 1 <= final_centering_steps c)%Z /\
  y = [/ 20] /\ feasible p [/ 12] /\ inequalities p * (1 / (en_ism e * en_ism e)) = 2 / 100.
Proof.
  intros f g n. destruct (lmi_handed (mkEnv f trace_estimate g) (/ 10) n 4 5) as (r & y & e & H & Hy & He & Hm & Hs); [lia|apply lmi_tame_trace; lra|].
  destruct (handed_scaled _ _ _ _ _ _ _ H) as (bs & cs & _ & _ & _ & HS).
  exists r, y, e, bs, cs. cbv zeta. split; [exact H|]. split; [exact HS|]. split; [apply lmi_rectangular|]. split; [apply lmi_equalities|]. split; [apply lmi_costs|].
  split; [apply lmi_conic|]. split; [apply lmi_convex|]. split; [reflexivity|]. split; [apply lmi_exact|]. split; [apply trace_accurate|]. split; [lra|].
  split; [eexists; split; reflexivity|]. split; [exact Hs|]. split; [cbn; lra|]. split; [cbn; lia|]. split; [rewrite Hy; f_equal; lra|]. split.
  - intros [|[|]] co Hc; try discriminate. injection Hc as <-. cbn [ct_data]. apply (lmi_slack_psd (/ 12)). lra.
  - rewrite Hm. cbn. lra.
Qed.
Print Assumptions C66_complementarity.
Print Assumptions C66_suboptimality.
Print Assumptions C66_accurate.
Print Assumptions C66_solved_is_feasible.

(** ** Inaccurate estimates *)

(** The quotient of the first unit vector, for both ends of the spectrum. *)
Definition first_entry (draws h n : nat) (WS W : JordanModel.hyper) : option (R * R) := Some (WS 0%nat 0%nat 0%nat, WS 0%nat 0%nat 0%nat).

(** A quotient that lies inside the spectrum, as one step of the Lanczos iteration
    returns, can report a norm of zero although the returned point violates the
    constraint: the estimates cannot be dropped from the theorems above. *)
Theorem C66_inaccurate_refuted : exists nf p c, forall n, exists r y e, handed_back nf p n c r y e /\ en_dinf e <= 1 /\
  st_solved (p_status (rt_prog _ r)) = true /\ final_centering_tolerance c <= 1 /\ (max_iterations c - 1 <= final_centering_steps c)%Z /\
  exists i co h m As C, nth_error (p_eqs p) i = Some co /\ ct_data co = CHerm h m As C /\ on_variables p i /\
    ~ herm_psd h m (herm_slack As C (nth i (p_cliques p) []) y).
Proof.
  exists (mkEnv (fun _ _ => 0) first_entry (fun _ _ b => b)), (lmi_program 1), (line_config 0 4 5 1). intros n.
  destruct (lmi_handed (mkEnv (fun _ _ => 0) first_entry (fun _ _ b => b)) 1 n 4 5) as (r & y & e & H & Hy & He & Hm & Hs); [lia| |].
  { intros draws. cbn [env_estimate first_entry]. rewrite lmi_WS_entries by lia. cbn. pose proof (norm_from_centered 0 ltac:(lra)) as E.
    replace (-1 - 0) with (-1) in E by ring. replace (-1 + 0) with (-1) in E by ring. rewrite E. lra. }
  exists r, y, e. split; [exact H|]. split; [exact He|]. split; [exact Hs|]. split; [cbn; lra|]. split; [cbn; lia|].
  exists 0%nat. do 5 eexists. split; [reflexivity|]. split; [reflexivity|]. split; [repeat constructor|]. rewrite Hy. apply lmi_slack_not_psd. lra.
Qed.
Print Assumptions C66_inaccurate_refuted.

(** ** Completion *)

(** The hypotheses of the completion theorem of C55 with a Hermitian constraint. *)
Example C55_matrix_example : forall b, let p := lmi_program b in let c := line_config 0 1 5 1 in
  starts p c /\ well_built p /\ consistent p /\ listed p /\ rectangular p /\ factorable p /\ (length (p_cost p) <= SizeOfKKTSystem p)%nat /\
  initialization_mode c = 0%Z /\ prepare_dual_variables c = 0%Z /\ (0 < max_iterations c)%Z /\ - / 10 ^ 15 < maximum_mu c /\
  / 10 ^ 15 + maximum_mu c <= infeasibility_threshold c /\ (0 < final_centering_steps c)%Z /\ enable_rescaling c = 0%Z.
Proof.
  intros b. cbv zeta. split; [apply lmi_starts|]. split; [apply lmi_well|]. split; [apply lmi_consistent|]. split; [apply lmi_listed|].
  split; [apply lmi_rectangular|]. split; [apply lmi_factorable|]. split; [cbn; lia|].
  do 3 (split; [reflexivity|]). split; [apply line_mu|]. split; [apply line_mu|]. split; reflexivity.
Qed.

(** ** Line search *)

(** As for second-order cones (C61): no search, and with line search enabled the
    centering parameter never changes. *)
Theorem C66_no_search : forall iters nf p st bound AQc cs b AW st' v i co h m As C, nth_error (p_eqs p) i = Some co -> ct_data co = CHerm h m As C ->
  ComputeMuFromLineSearch (conex iters nf) p st bound AQc cs b AW = Ok (st', v) -> v = -1.
Proof. intros iters nf p st bound AQc cs b AW st' v i co h m As C Hi Hd H. eapply line_search_cone; eauto. rewrite Hd. exact I. Qed.
Theorem C66_parameter_fixed : forall nf p n c r i co h m As C, starts p c -> enable_line_search c <> 0%Z ->
  nth_error (p_eqs p) i = Some co -> ct_data co = CHerm h m As C -> ConexSolve nf p n c = Ok (Returned _ r) ->
  forall e, In e (rt_log _ r) -> 1 / (en_ism e * en_ism e) = / 10 ^ 15 + maximum_mu c.
Proof.
  intros nf p n c r i co h m As C H1 H2 H3 H4 H5 e He.
  assert (unsearched (ct_data co)) as HU by (rewrite H4; exact I).
  destruct (cone_stuck nf p n c r i co H1 H2 H3 HU H5 e He) as [-> Hp]. unfold floor_of in *.
  set (d := / 10 ^ 15 + maximum_mu c) in *. clearbody d.
  destruct (Rle_dec (1 / d) 0) as [H|H]; [rewrite sqrt_neg_0 in Hp by auto; lra|].
  rewrite sqrt_sqrt by lra. assert (d <> 0) as HN.
  { intros E. rewrite E in H. unfold Rdiv in H. rewrite Rinv_0 in H. lra. }
  field. auto.
Qed.
Example C66_search_example : forall nf n b, exists r e t, let p := lmi_program b in let c := Prop_Cones.search_config in
  starts p c /\ enable_line_search c <> 0%Z /\ (exists co, nth_error (p_eqs p) 0 = Some co /\ ct_data co = CHerm 2 2 lmi_A lmi_c) /\
  ConexSolve nf p n c = Ok (Returned _ r) /\ rt_log _ r = e :: t /\ 1 / (en_ism e * en_ism e) = / 10 ^ 15 + 10000.
Proof.
  assert (0 < / 10 ^ 15 <= 1) as HB by (split; [apply Rinv_0_lt_compat; lra|rewrite <- Rinv_1; apply Rinv_le_contravar; lra]).
  intros nf n b. destruct (cold_handed nf (lmi_program b) n Prop_Cones.search_config) as (r & y & e & H & Hy);
    auto using lmi_starts, lmi_well, lmi_consistent, lmi_listed, lmi_rectangular, lmi_factorable; try reflexivity;
    unfold Prop_Cones.search_config, maximum_mu, infeasibility_threshold, enable_rescaling; try lra; try tauto; try (intros Hk; discriminate Hk); try (cbn; lia).
  - destruct (hb_entry _ _ _ _ _ _ _ H) as (t & Et). exists r, e, t. cbv zeta. split; [apply lmi_starts|]. split; [discriminate|].
    split; [eexists; split; reflexivity|]. pose proof (hb_solve _ _ _ _ _ _ _ H) as E. split; [exact E|]. split; [exact Et|].
    eapply (C66_parameter_fixed nf (lmi_program b) n Prop_Cones.search_config r 0); eauto using lmi_starts; try reflexivity; [discriminate|]. rewrite Et. left. auto.
Qed.
Print Assumptions C66_no_search.
Print Assumptions C66_parameter_fixed.
