(** Property C71: a client of the C interface that builds a linear program and
    maximises. *)
From Coq Require Import List Arith ZArith Reals Bool Lia Lra.
From Verif Require Import Base ProgramModel ApiModel SolveModel LinearModel ConcreteBackend ClientModel Spec_Linear Spec_Assembly Spec_Program Spec_Solve
  Spec_Preprocess Spec_Conex Spec_Client ProgramProofs ProgramRun ConexRun ClientFacts ClientProofs ClientRun Prop_Program Prop_Conex.
Import ListNotations.
Open Scope R_scope.

(** Programs whose constraints were all added without a list of variables have a
    sound symbolic factorization. *)
Theorem C71_well_built : forall n ks p rs, (0 < n)%nat -> Forall whole_list ks -> api_run (new_program n) ks = Ok (p, rs) ->
  p_eqs p <> [] -> well_built p.
Proof. exact shared_well. Qed.

(** The calls succeed, and the points that satisfy the constraints of the program
    are those that satisfy what was passed. *)
Theorem C71_same_points : forall n gs, (0 < n)%nat -> Forall (group_ok n) gs -> exists p rs,
  api_run CONEX_CreateConeProgram (client_calls n gs) = Ok (p, rs) /\
  forall b y, feasible (set_objective p b) y <-> forall g, In g gs -> group_holds g y.
Proof.
  intros n gs Hn F. destruct (client_run n gs Hn F) as (p & rs & E). exists p, rs. split; auto.
  intros b y. apply (client_feasible n gs b _ F). eapply client_program; eauto.
Qed.

(** The objective of a call replaces that of earlier calls. *)
Theorem C71_objective_replaced : forall n ks p rs b, (0 < n)%nat -> api_run (new_program n) ks = Ok (p, rs) -> p_n p = length b ->
  p_cost (set_objective p b) = map Ropp b.
Proof.
  intros n ks p rs b Hn E Hb. unfold set_objective, AddLinearCost. cbn [p_n ClearLinearCosts set_cost]. rewrite map_length, Hb, Nat.eqb_refl. cbn.
  apply vadd_zero. rewrite map_length. pose proof (C23_linear_cost n _ _ _ (or_introl Hn) E) as [-> _]. pose proof (minv_run n _ _ _ _ (minv_new n) (or_introl Hn) E) as I. rewrite <- Hb. symmetry. apply I.
Qed.
(** One of the wrong length is ignored: every cost coefficient is zero. *)
Theorem C71_wrong_length_ignored : forall p b v, p_n p <> length b -> nth v (p_cost (set_objective p b)) 0 = 0.
Proof.
  intros p b v H. unfold set_objective, AddLinearCost. cbn [p_n ClearLinearCosts set_cost]. rewrite map_length.
  destruct (Nat.eqb_spec (p_n p) (length b)); [tauto|]. cbn. generalize (p_cost p). clear. intros l. revert v. induction l as [|x l IH]; intros [|v]; cbn; auto.
Qed.

(** The solve returns a point.  If the last reported norm is at most one, the point
    satisfies everything that was passed, and no other such point is better by more
    than the number of inequalities times [mu] over the scalings. *)
Theorem C71_maximize : forall env n gs b p rs st c, (0 < n)%nat -> Forall (group_ok n) gs -> Exists restricts gs ->
  api_run CONEX_CreateConeProgram (client_calls n gs) = Ok (p, rs) ->
  plain_options (APIConvertSolverConfiguration c) -> Exists equates gs \/ spanning n gs ->
  exists r y e t bs cs, CONEX_Maximize env p st b c = Ok (Returned _ r) /\ rt_y _ r = YVec y /\ length y = n /\ rt_log _ r = e :: t /\
    scalings (rt_prog _ r) (rt_num _ r) bs cs /\ 0 < bs /\ 0 < cs /\ (a_enable_rescaling c = 0%Z -> bs = 1 /\ cs = 1) /\ 0 < en_ism e /\
    (en_dinf e <= 1 -> (forall g, In g gs -> ~ equates g) \/ exact_pivots (set_objective p b) (nm_bk (rt_num _ r)) ->
     (forall g, In g gs -> group_holds g y) /\
     (length b = n -> forall z, (forall g, In g gs -> group_holds g z) ->
      product b z <= product b y + INR (list_sum (map group_count gs)) * (1 / (en_ism e * en_ism e)) / (bs * cs))).
Proof. exact client_solves. Qed.

(** The default options qualify unless the QR solver was requested. *)
Theorem C71_default_options : forall c, a_kkt_solver c <> 2%Z -> plain_options (APIConvertSolverConfiguration (CONEX_SetDefaultOptions c)).
Proof. exact default_plain. Qed.

(** Two upper bounds and a row with a lower and an unused upper bound; the same
    with an equality. *)
Definition box : list group := [Upper [[1; 0]; [0; 1]] [1; 2]; Between [([1; 1], -3, 10 ^ 9)]].
Definition box_eq : list group := Between [([1; 1], 2, 2); ([1; 0], -1, 1)] :: box.
Example C71_example : forall env st, Forall (group_ok 2) box /\ Exists restricts box /\ spanning 2 box /\ (forall g, In g box -> ~ equates g) /\
  Forall (group_ok 2) box_eq /\ Exists equates box_eq /\
  list_sum (map group_count box) = 3%nat /\ (forall g, In g box -> group_holds g [1; 2]) /\ (forall g, In g box_eq -> group_holds g [1; 1]) /\
  (exists p rs r y, api_run CONEX_CreateConeProgram (client_calls 2 box) = Ok (p, rs) /\
     CONEX_Maximize env p st [1; 1] (CONEX_SetDefaultOptions (mkApi 0 0 0 0 0 0 0 0 0 0 0 0 0 0 0 0 0 0 0)) = Ok (Returned _ r) /\
     rt_y _ r = YVec y /\ length y = 2%nat) /\
  exists p rs r y, api_run CONEX_CreateConeProgram (client_calls 2 box_eq) = Ok (p, rs) /\
     CONEX_Maximize env p st [1; 1] (CONEX_SetDefaultOptions (mkApi 0 0 0 0 0 0 0 0 0 0 0 0 0 0 0 0 0 0 0)) = Ok (Returned _ r) /\
     rt_y _ r = YVec y /\ length y = 2%nat.
Proof.
  intros env st.
  assert (Forall (group_ok 2) box) as F1.
  { constructor; [split; [discriminate|split; [reflexivity|repeat constructor]]|]. constructor; [|constructor].
    intros a lb ub [[= <- <- <-]|[]]. repeat split; intros; right; exists 1; split; try (left; reflexivity); lra. }
  assert (Forall (group_ok 2) box_eq) as F2.
  { constructor; auto. intros a lb ub [[= <- <- <-]|[[= <- <- <-]|[]]]; repeat split; intros; right; exists 1; split; try (left; reflexivity); lra. }
  assert (Exists restricts box) as R1 by (left; discriminate).
  assert (Exists restricts box_eq) as R2 by (right; left; discriminate).
  assert (spanning 2 box) as SP.
  { intros z H v Hv. pose proof (H _ (or_introl eq_refl)) as HU. cbn in HU. pose proof (HU _ (or_introl eq_refl)) as H0. pose proof (HU _ (or_intror (or_introl eq_refl))) as H1.
    unfold product in H0, H1. cbn in H0, H1. destruct v as [|[|v]]; [lra|lra|lia]. }
  assert (Exists equates box_eq) as EQ by (left; exists [1; 1], 2, 2; split; [left; auto|auto]).
  assert (forall gs, Forall (group_ok 2) gs -> Exists restricts gs -> Exists equates gs \/ spanning 2 gs ->
    exists p rs r y, api_run CONEX_CreateConeProgram (client_calls 2 gs) = Ok (p, rs) /\
     CONEX_Maximize env p st [1; 1] (CONEX_SetDefaultOptions (mkApi 0 0 0 0 0 0 0 0 0 0 0 0 0 0 0 0 0 0 0)) = Ok (Returned _ r) /\
     rt_y _ r = YVec y /\ length y = 2%nat) as HG.
  { intros gs Fg Rg Sg. destruct (C71_same_points 2 gs ltac:(lia) Fg) as (p & rs & E & _).
    destruct (C71_maximize env 2 gs [1; 1] p rs st (CONEX_SetDefaultOptions (mkApi 0 0 0 0 0 0 0 0 0 0 0 0 0 0 0 0 0 0 0))) as (r & y & e & t & bs & cs & HM & Hy & Ly & _); auto.
    { apply C71_default_options. discriminate. } exists p, rs, r, y. auto. }
  split; [exact F1|]. split; [exact R1|]. split; [exact SP|].
  split. { intros g [<-|[<-|[]]]; cbn; [tauto|]. intros (a & lb & ub & [[= <- <- <-]|[]] & E). lra. }
  split; [exact F2|]. split; [exact EQ|].
  split. { cbn [box map group_count fst snd length list_sum fold_right]. unfold bound_count. destruct (Req_EM_T (-3) (10 ^ 9)); [lra|]. destruct (Rlt_dec (10 ^ 9) (10 ^ 8)); [lra|]. destruct (Rlt_dec (- 10 ^ 8) (-3)); [reflexivity|lra]. }
  assert (forall y0 y1, y0 <= 1 -> y1 <= 2 -> -3 <= y0 + y1 -> forall g, In g box -> group_holds g [y0; y1]) as HB.
  { intros y0 y1 H0 H1 H2 g [<-|[<-|[]]].
    - intros [|[|k]] Hk; cbn in Hk; try lia; unfold product; cbn; lra.
    - intros a lb ub [[= <- <- <-]|[]]. unfold product. cbn. repeat split; intros; lra. }
  split; [apply HB; lra|].
  split. { intros g [<-|Hg]; [|apply HB; auto; lra]. intros a lb ub [[= <- <- <-]|[[= <- <- <-]|[]]]; unfold product; cbn; repeat split; intros; lra. }
  split; auto.
Qed.

(** Maximise [y / 10] subject to [y <= 1]: the last norm is zero, so the conclusion
    applies to the returned point 0.9. *)
Definition line_api : api_config := mkApi 0 0 10 0 (/ 100 - / 10 ^ 15) 1 1 1 4 1 0 0 2 5 0 100000 10000000000 0 0.
Example C71_line_example : forall env st, exists p rs r e,
  api_run CONEX_CreateConeProgram (client_calls 1 [Upper [[1]] [1]]) = Ok (p, rs) /\ Forall (group_ok 1) [Upper [[1]] [1]] /\
  Exists restricts [Upper [[1]] [1]] /\ spanning 1 [Upper [[1]] [1]] /\ plain_options (APIConvertSolverConfiguration line_api) /\
  CONEX_Maximize env p st [/ 10] line_api = Ok (Returned _ r) /\ rt_y _ r = YVec [9 / 10] /\ rt_log _ r = [e] /\ en_dinf e <= 1 /\ en_ism e = 10 /\
  p_cost (set_objective p [/ 10]) = [- / 10] /\ nth 0 (p_cost (set_objective p [1; 1])) 0 = 0.
Proof.
  intros env st. assert (Rabs (10 * / 10 - 1) = 0) as E0 by (replace (10 * / 10 - 1) with 0 by field; apply Rabs_R0).
  destruct (line_run env (/ 10) st 0 4 5 1) as (r & E1 & E2 & E3 & E4 & E5 & E6 & EI & E7); [lia|right; lra|].
  eexists _, _, r, _. split; [reflexivity|].
  split; [repeat constructor; discriminate|]. split; [left; discriminate|].
  split. { intros z H [|v] Hv; [|lia]. pose proof (H _ (or_introl eq_refl)) as HU. specialize (HU _ (or_introl eq_refl)). unfold product in HU. cbn in HU. lra. }
  split. { split; cbn; try lia; try lra; auto; discriminate. }
  match goal with |- CONEX_Maximize _ ?p _ _ _ = _ /\ _ => assert (set_objective p [/ 10] = line_program (/ 10)) as EP by reflexivity end.
  split. { unfold CONEX_Maximize. rewrite EP. exact E1. }
  split; [eapply eq_trans; [exact E5|repeat f_equal; field]|]. split; [exact E6|]. cbn [en_dinf en_ism]. split; [lra|]. split; [reflexivity|].
  split; [rewrite EP; cbn; f_equal; lra|reflexivity].
Qed.

Print Assumptions C71_well_built.
Print Assumptions C71_same_points.
Print Assumptions C71_objective_replaced.
Print Assumptions C71_wrong_length_ignored.
Print Assumptions C71_maximize.
Print Assumptions C71_default_options.
