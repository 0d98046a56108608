(** Solver-side state of the program object (C21, C23, C25, C50). *)
From Coq Require Import List Arith ZArith Reals Bool Lia Lra.
From Verif Require Import Base BaseFacts LayoutModel TriWorkspaceModel AssemblerModel Spec_Assembly
  AssemblerProofs SymbolicFacts LinearFacts ProgramModel PreprocessModel ApiModel Spec_Program
  ProgramProofs ProgramRun CoeffProofs.
Import ListNotations.
Open Scope nat_scope.

Lemma make_workspaces_length eqs it m : length (make_workspaces eqs it m) = 2 * length eqs + 2.
Proof.
  unfold make_workspaces. rewrite app_length. cbn [length]. f_equal.
  induction eqs as [|e t IH]; cbn; auto. rewrite IH. lia.
Qed.

(** [k]: number of constraints at the last initialisation. *)
Definition bound_at (p : program) (k : nat) : Prop :=
  0 < k /\ k <= NumberOfConstraints p /\ p_init p = true /\
  length (p_workspaces p) = 2 * k + 2 /\ p_kkt p = seq 0 k /\ p_stats p <> None.
Definition fresh_state (p : program) : Prop :=
  p_init p = false /\ p_workspaces p = [] /\ p_kkt p = [] /\ p_stats p = None.

Lemma Initialize_state p cold it p' : Initialize p cold it = Ok p' -> 0 < NumberOfConstraints p ->
  (fresh_state p \/ exists k, bound_at p k) ->
  exists k, bound_at p' k /\ (p_init p = false \/ cold = true -> k = NumberOfConstraints p).
Proof.
  unfold Initialize. intros E HN HS. destruct (negb (p_init p) || cold) eqn:T.
  - apply bind_ok in E as (b & _ & E). injection E as <-. exists (NumberOfConstraints p). split; auto.
    unfold bound_at, NumberOfConstraints in *. cbn [p_eqs p_init p_workspaces p_kkt p_stats InitializeWorkspace].
    split; auto. split; auto. split; auto. split; [apply make_workspaces_length|]. split; auto. discriminate.
  - injection E as <-. apply orb_false_iff in T as [T1 T2]. apply negb_false_iff in T1.
    destruct HS as [(H & _)|(k & Hk)]; [congruence|]. exists k. split; auto. intros [H|H]; congruence.
Qed.

Lemma rest_state p p' : rest p' = rest p -> NumberOfConstraints p <= NumberOfConstraints p' ->
  (fresh_state p -> fresh_state p') /\ (forall k, bound_at p k -> bound_at p' k).
Proof.
  unfold rest. intros H Hle.
  repeat match type of H with (_, _) = (_, _) => apply pair_equal_spec in H as [H ?] end.
  unfold fresh_state, bound_at. split.
  - intros (F1 & F2 & F3 & F4). repeat split; congruence.
  - intros k (K1 & K2 & K3 & K4 & K5 & K6). repeat split; try congruence. lia.
Qed.

Definition wstate (p : program) : Prop := fresh_state p \/ exists k, bound_at p k.

Lemma Solve_state p c o p' s : wstate p -> Solve_program p c o = Ok (p', s) ->
  wstate p' /\ (quadratic_precondition p c = true -> 0 < NumberOfConstraints p ->
                exists k, bound_at p' k /\ (p_init p = false \/ initialization_mode c = 0%Z -> k = NumberOfConstraints p)).
Proof.
  intros HW. unfold Solve_program. destruct (quadratic_precondition p c) eqn:TQ; cbn [negb].
  2: { intros E. injection E as <- <-. split; auto. discriminate. }
  destruct (Nat.eqb_spec (NumberOfConstraints p) 0) as [H0|H0].
  { intros E. injection E as <- <-. split; [exact HW|]. intros; lia. }
  intros E. apply bind_ok in E as (p2 & E2 & E). injection E as <- <-.
  apply Initialize_state in E2 as (k & Hk & Hk'); [|cbn; unfold NumberOfConstraints in *; cbn; lia|exact HW].
  set (q := set_status _ _).
  assert (bound_at q k) as HB.
  { unfold bound_at in *. destruct Hk as (K1 & K2 & K3 & K4 & K5 & K6).
    repeat split; auto. cbn. destruct (p_stats p2); [discriminate|congruence]. }
  split; [right; eauto|]. intros _ _. exists k. split; auto.
  intros H. apply Hk'. destruct H as [H|H]; auto. right. rewrite H. auto.
Qed.

Lemma step_state p k p' r : wstate p -> api_step p k = Ok (p', r) -> wstate p'.
Proof.
  intros HW E.
  assert (~ is_solve k -> wstate p') as HNS.
  { intros Hk. destruct (step_rest _ _ _ _ E) as [HR _]. specialize (HR Hk).
    destruct (rest_state p p' HR (kp_count _ _ _ (step_kept _ _ _ _ E))) as [H1 H2].
    destruct HW as [HW|(m & HW)]; [left; auto|right; eauto]. }
  destruct k; try (apply HNS; cbn; tauto); clear HNS; cbn [api_step] in E.
  - destruct (AddLinearCost (ClearLinearCosts p) (map Ropp b)) as [p1 s1] eqn:Ec.
    apply bind_ok in E as ([q s] & E1 & E). injection E as <- <-.
    apply Solve_state in E1; [tauto|].
    unfold AddLinearCost in Ec. destruct (negb _) in Ec; injection Ec as <- <-; exact HW.
  - apply bind_ok in E as ([q s] & E1 & E). injection E as <- <-.
    apply Solve_state in E1; tauto.
Qed.

Lemma run_state : forall ks p p' rs, wstate p -> api_run p ks = Ok (p', rs) -> wstate p'.
Proof.
  induction ks as [|k t IH]; intros p p' rs I E.
  - cbn in E. injection E as <- <-. auto.
  - apply run_cons in E as (p1 & r & rs' & E1 & E2 & ->). eauto using step_state.
Qed.

Lemma new_state n : wstate (new_program n).
Proof. left. repeat split. Qed.

(** *** Before the first solve *)
Lemma run_fresh : forall ks p p' rs, fresh_state p -> Forall (fun k => ~ is_solve k) ks ->
  api_run p ks = Ok (p', rs) -> fresh_state p'.
Proof.
  induction ks as [|k t IH]; intros p p' rs I HF E.
  - cbn in E. injection E as <- <-. auto.
  - apply run_cons in E as (p1 & r & rs' & E1 & E2 & ->). inversion HF; subst.
    apply (IH p1 p' rs'); auto.
    destruct (step_rest _ _ _ _ E1) as [HR _].
    apply (rest_state p p1 (HR H1) (kp_count _ _ _ (step_kept _ _ _ _ E1))). auto.
Qed.

Lemma fresh_cast p : fresh_state p -> safer_cast p = true.
Proof. intros (H1 & H2 & _). unfold safer_cast. rewrite H1, H2. auto. Qed.

Lemma bound_cast p k : bound_at p k -> safer_cast p = (NumberOfConstraints p =? 2 * k).
Proof.
  intros (_ & _ & H1 & H2 & _). unfold safer_cast. rewrite H1, H2.
  destruct (Nat.eqb_spec (NumberOfConstraints p) (2 * k)), (Nat.eqb_spec (NumberOfConstraints p + 2) (2 * k + 2)); auto; lia.
Qed.

Lemma add_success p lv x vars : good_list (p_n p) (list_of p vars) ->
  exists p', AddConstraint p lv x vars = Ok (p', SUCCESS).
Proof. intros H. apply is_unique_good in H. destruct (add_accept p lv x vars H) as (p' & E & _). eauto. Qed.

Lemma nonzero_vars_good (M : matrix) n : length M <= n -> good_list n (map Z.of_nat (nonzero_vars M)).
Proof.
  intros H. unfold nonzero_vars. split.
  - apply FinFun.Injective_map_NoDup; [intros a b E; lia|]. apply NoDup_filter, seq_NoDup.
  - intros v Hv. apply in_map_iff in Hv as (i & <- & Hi). apply filter_In in Hi as [Hi _]. apply in_seq in Hi. lia.
Qed.

Lemma send_success o w : well_sized o -> in_range o w -> acceptable o w ->
  exists o', send o w = Ok (o', SUCCESS).
Proof.
  intros H1 H2 H3. destruct (send_correct o w H1 H2) as (o' & s & E & S).
  rewrite (proj2 (sn_iff _ _ _ _ S) H3) in E. eauto.
Qed.

Lemma guarded_success p k : safer_cast p = true -> well_formed p k ->
  exists p' id, api_step p k = Ok (p', mkReply SUCCESS id).
Proof.
  intros HC HW. destruct k; cbn [well_formed] in HW; try tauto; cbn [api_step].
  - destruct HW as [H1 H2]. destruct (Z.leb_spec 1 n); [|lia]. cbn [negb]. rewrite HC, H2. cbn. eauto.
  - destruct HW as (H1 & -> & H3). destruct (Z.leb_spec 1 order); [|lia]. cbn [negb].
    assert (((hdim =? 1) || (hdim =? 2) || (hdim =? 4) || (hdim =? 8))%Z%bool = true /\
            ((hdim =? 8) && negb (order <=? 3))%Z%bool = false) as [-> ->].
    { destruct H3 as [->|[->|[->|[-> Ho]]]]; split; auto. destruct (Z.leb_spec order 3); auto; lia. }
    cbn [negb]. rewrite HC. cbn [negb].
    destruct (add_success p false (CHerm (Z.to_nat hdim) (Z.to_nat order) [] []) None (all_variables_good p)) as (p' & ->).
    cbn. eauto.
  - subst. rewrite HC. cbn [negb].
    destruct (add_success p false (CLinear (p_n p) (zeros num_rows (p_n p)) (repeat 0%R num_rows)) None (all_variables_good p)) as (p' & ->).
    cbn. eauto.
  - subst. rewrite HC. cbn [negb]. unfold AddQuadraticCost_all, zeros. rewrite repeat_length, Nat.eqb_refl. cbn [negb].
    unfold AddQuadraticCost.
    destruct (add_success (set_quadratic p) false (CQuad (repeat (repeat 0%R (p_n p)) (p_n p))) (Some (all_variables p)) (all_variables_good p)) as (p' & ->).
    cbn. eauto.
  - destruct HW as [H1 H2]. rewrite HC. cbn [negb]. unfold NonZeroSubMat.
    destruct (Nat.ltb_spec cols (length A)); [lia|]. cbn [bind]. unfold AddQuadraticCost.
    match goal with |- context [AddConstraint ?q false ?x ?v] =>
      destruct (add_success q false x v (nonzero_vars_good A (p_n p) H2)) as (p' & ->) end.
    cbn. eauto.
  - destruct HW as (H1 & ->). destruct (Z.leb_spec 1 order); [|lia]. cbn [negb]. rewrite HC. cbn [negb].
    destruct (add_success p false (CSoc (Z.to_nat order) [] []) None (all_variables_good p)) as (p' & ->).
    cbn. eauto.
  - destruct HW as (j & ct & -> & Hj & W1 & W2 & W3). rewrite HC. cbn [negb].
    apply nth_error_lt in Hj as Hl. unfold NumberOfConstraints.
    destruct (Z.ltb_spec (Z.of_nat j) (Z.of_nat (length (p_eqs p)))); [|lia]. cbn [negb].
    unfold UpdateLinearOperatorOfConstraint. unfold Zneg. destruct (Z.ltb_spec (Z.of_nat j) 0); [lia|].
    rewrite Nat2Z.id, Hj. destruct (send_success _ _ W1 W2 W3) as (o' & Es). cbn in Es. rewrite Es. cbn. eauto.
  - destruct HW as (j & ct & -> & Hj & W1 & W2 & W3). rewrite HC. cbn [negb].
    apply nth_error_lt in Hj as Hl. unfold NumberOfConstraints.
    destruct (Z.ltb_spec (Z.of_nat j) (Z.of_nat (length (p_eqs p)))); [|lia]. cbn [negb].
    unfold UpdateAffineTermOfConstraint. unfold Zneg. destruct (Z.ltb_spec (Z.of_nat j) 0); [lia|].
    rewrite Nat2Z.id, Hj. destruct (send_success _ _ W1 W2 W3) as (o' & Es). cbn in Es. rewrite Es. cbn. eauto.
  - destruct HW as (j & ct & -> & Hj & W1 & W2 & W3). rewrite HC. cbn [negb].
    apply nth_error_lt in Hj as Hl. unfold NumberOfConstraints.
    destruct (Z.ltb_spec (Z.of_nat j) (Z.of_nat (length (p_eqs p)))); [|lia]. cbn [negb].
    unfold UpdateAffineTermOfConstraint. unfold Zneg. destruct (Z.ltb_spec (Z.of_nat j) 0); [lia|].
    rewrite Nat2Z.id, Hj. destruct (send_success _ _ W1 W2 W3) as (o' & Es). cbn in Es. rewrite Es. cbn. eauto.
Qed.

Lemma guarded_failure p k : safer_cast p = false -> guarded k -> api_step p k = Ok (p, mkReply FAILURE None).
Proof.
  intros HC HG. destruct k; cbn [guarded] in HG; try tauto; cbn [api_step]; rewrite HC; cbn [negb];
    repeat match goal with |- (if ?b then _ else _) = _ => destruct b; auto end; auto.
Qed.

(** *** Linear cost *)
Definition cost_is (n : nat) (p : program) (acc : list (list R)) : Prop :=
  length (p_cost p) = n /\
  forall i, i < n -> nth i (p_cost p) 0%R = component_sum i (filter (fun b => length b =? n) acc).

Lemma vadd_spec a b : length a = length b ->
  length (vadd a b) = length a /\ forall i, i < length a -> nth i (vadd a b) 0%R = (nth i a 0 + nth i b 0)%R.
Proof.
  revert b. induction a as [|x a IH]; intros [|y b] H; try discriminate; cbn in *.
  - split; auto. intros; lia.
  - destruct (IH b) as [H1 H2]; [lia|]. split; [lia|]. intros [|i] Hi; auto. apply H2. lia.
Qed.

Lemma component_sum_app i a b : component_sum i (a ++ b) = (component_sum i a + component_sum i b)%R.
Proof.
  unfold component_sum in *. induction a as [|x a IH]; cbn [fold_right app]; [ring|]. rewrite IH. ring.
Qed.

Lemma cost_add n p acc b : cost_is n p acc -> p_n p = n -> cost_is n (fst (AddLinearCost p b)) (acc ++ [b]).
Proof.
  intros [H1 H2] Hn. unfold AddLinearCost. rewrite Hn.
  destruct (Nat.eqb_spec n (length b)) as [E|E]; cbn [negb fst].
  - destruct (vadd_spec (p_cost p) b) as [V1 V2]; [congruence|]. split; [cbn; congruence|].
    intros i Hi. cbn [p_cost set_cost]. rewrite V2 by lia. rewrite H2 by auto.
    rewrite filter_app. cbn [filter]. rewrite <- E, Nat.eqb_refl. rewrite component_sum_app.
    unfold component_sum at 3. cbn [fold_right]. ring.
  - split; auto. intros i Hi. rewrite H2 by auto. rewrite filter_app. cbn [filter].
    destruct (Nat.eqb_spec (length b) n); [congruence|]. rewrite app_nil_r. auto.
Qed.

Lemma cost_clear n p acc : cost_is n p acc -> cost_is n (ClearLinearCosts p) [].
Proof.
  intros [H1 H2]. split; cbn; [rewrite map_length; auto|]. intros i Hi.
  rewrite nth_map_lt with (d' := 0%R) by lia. auto.
Qed.

Definition cost_acc (acc : list (list R)) (k : call) : list (list R) :=
  match k with
  | PAddLinearCost b => acc ++ [b]
  | PClearLinearCosts => []
  | AMaximize b _ _ => [map Ropp b]
  | _ => acc
  end.

Lemma cost_step n p acc k p' r : p_n p = n -> cost_is n p acc -> (0 < n \/ ~ sets_variables k) ->
  api_step p k = Ok (p', r) -> cost_is n p' (cost_acc acc k).
Proof.
  intros Hn HC Hs E.
  assert (~ cost_call k -> cost_is n p' acc) as HN.
  { intros Hk. unfold cost_is. destruct (step_rest _ _ _ _ E) as [_ ->]; auto. destruct Hs; auto. left. lia. }
  destruct k; try (apply HN; cbn; tauto); clear HN; cbn [api_step cost_acc] in *.
  - destruct (AddLinearCost (ClearLinearCosts p) (map Ropp b)) as [p1 s1] eqn:Ec.
    apply bind_ok in E as ([q s] & E1 & E). injection E as <- <-.
    apply Solve_program_mgr in E1 as (_ & H & _). unfold cost_is. rewrite H.
    pose proof (cost_add n (ClearLinearCosts p) [] (map Ropp b) (cost_clear _ _ _ HC) Hn) as HA.
    rewrite Ec in HA. exact HA.
  - pose proof (cost_add n p acc b HC Hn) as HA. destruct (AddLinearCost p b). injection E as <- <-. exact HA.
  - injection E as <- <-. eapply cost_clear; eauto.
Qed.

Lemma cost_run n : forall ks p acc p' rs, minv n p -> cost_is n p acc ->
  (0 < n \/ Forall (fun k => ~ sets_variables k) ks) ->
  api_run p ks = Ok (p', rs) -> cost_is n p' (fold_left cost_acc ks acc).
Proof.
  induction ks as [|k t IH]; intros p acc p' rs I HC Hs E.
  - cbn in E. injection E as <- <-. auto.
  - apply run_cons in E as (p1 & r & rs' & E1 & E2 & ->). cbn [fold_left].
    assert (0 < n \/ ~ sets_variables k) as Hk by (destruct Hs as [|Hs]; auto; inversion Hs; auto).
    eapply IH; [| | |exact E2].
    + eapply minv_step; eauto.
    + eapply cost_step; eauto. apply I.
    + destruct Hs as [|Hs]; auto. inversion Hs; auto.
Qed.

Lemma cost_new n : cost_is n (new_program n) [].
Proof. split; cbn; [apply repeat_length|]. intros. apply nth_repeat_any. Qed.

Lemma costs_since_clear_eq n ks :
  costs_since_clear n ks = filter (fun b => length b =? n) (fold_left cost_acc ks []).
Proof. reflexivity. Qed.

(** *** Initialisation never throws on an admissible program (C50) *)
Lemma Initialize_total n p cold it : minv n p -> nth 0 (p_cliques p) [] <> [] -> exists p', Initialize p cold it = Ok p'.
Proof.
  intros I H0. unfold Initialize. destruct (negb (p_init p) || cold); [|eauto].
  destruct (admissible_build _ _ (minv_admissible _ _ I H0)) as (d & o & bs & E & _).
  cbn [p_cliques p_duals InitializeWorkspace]. rewrite E. cbn. eauto.
Qed.

Lemma Initialize_throws n p cold it : minv n p -> 0 < NumberOfConstraints p ->
  negb (p_init p) || cold = true -> nth 0 (p_cliques p) [] = [] -> Initialize p cold it = Throw.
Proof.
  intros I HN Hi H0. unfold Initialize. rewrite Hi. cbn [p_cliques p_duals InitializeWorkspace].
  destruct (mi_len _ _ I) as [L1 L2]. unfold NumberOfConstraints in HN.
  rewrite empty_first_clique_throws; auto.
  - eapply minv_clique_nodup; eauto.
  - intros E. rewrite E in L1. cbn in L1. lia.
  - congruence.
Qed.
