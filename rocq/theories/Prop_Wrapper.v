(** Property C77: clients of the Python class. *)
From Coq Require Import List Arith ZArith Reals Bool Lia Lra.
From Verif Require Import Base BaseFacts ProgramModel ApiModel SolveModel ConcreteBackend ClientModel WrapperModel Spec_Program Spec_Wrapper Spec_Linear
  Spec_Solve ToyBackend ProgramProofs ProgramState ProgramRun WrapperProofs Prop_Solve.
Import ListNotations.
Open Scope R_scope.

(** A client that uses only methods that keep the books: [GetDualVariables] succeeds
    and returns one array per constraint of the program, with the right number of
    entries; all of them are written for the constraints of the last solve. *)
Theorem C77_buffers : forall m w0 ks w, (0 < m)%Z -> py_new m = Ok w0 -> Forall (keeps_books (Z.to_nat m)) ks -> py_run w0 ks = Ok w ->
  exists l, GetDualVariables w = Ok l /\ length l = NumberOfConstraints (py_a w) /\
  forall i a b, nth_error l i = Some (a, b) -> exists ct, nth_error (p_eqs (py_a w)) i = Some ct /\ entries (ct_data ct) = Some a /\
    ((i < length (p_kkt (py_a w)))%nat -> b = a).
Proof. intros m w0 ks w Hm E0 F E. apply (books_buffers (Z.to_nat m)). eapply run_books; eauto. apply new_books; auto. Qed.

(** Right after a solve with the options of the class, these are all. *)
Theorem C77_after_solve : forall m w0 ks k w, (0 < m)%Z -> py_new m = Ok w0 -> Forall (keeps_books (Z.to_nat m)) ks -> default_solve k ->
  py_run w0 (ks ++ [k]) = Ok w -> exists l, GetDualVariables w = Ok l /\ length l = NumberOfConstraints (py_a w) /\
  forall i a b, nth_error l i = Some (a, b) -> b = a /\ exists ct, nth_error (p_eqs (py_a w)) i = Some ct /\ entries (ct_data ct) = Some a.
Proof.
  intros m w0 ks k w Hm E0 F Hk E.
  assert (forall l w1, py_run w1 (l ++ [k]) = Ok w -> exists w2, py_run w1 l = Ok w2 /\ py_step w2 k = Ok w) as HR.
  { induction l as [|a l IH]; intros w1 H; cbn [app py_run] in H |- *.
    - apply bind_ok in H as (w2 & H1 & H2). injection H2 as ->. eauto.
    - apply bind_ok in H as (w2 & H1 & H2). rewrite H1. cbn [bind]. auto. }
  destruct (HR _ _ E) as (w2 & E1 & E2). pose proof (run_books _ _ _ _ (new_books m w0 Hm E0) F E1) as B.
  pose proof (solved_bound _ _ _ _ B Hk E2) as HB.
  assert (keeps_books (Z.to_nat m) k) as HK by (destruct k; try destruct Hk; exact I).
  destruct (books_buffers _ w (step_books _ _ _ _ B HK E2)) as (l & H1 & H2 & H3). exists l. split; auto. split; auto.
  intros i a b Hi. destruct (H3 i a b Hi) as (ct & K1 & K2 & K3). split; [|eauto]. apply K3.
  assert (i < length (p_eqs (py_a w)))%nat by (apply nth_error_Some; congruence). lia.
Qed.

Example C77_example : forall c0 o, exists w0 w, let ks := [PyAddLinearInequality 2 [[1; 0]] [1] true; PyNewLMI 2 2; PyUpdateAffineTerm 0 3 0 0 0; PyAddSparseLMI 1 [[[1]]] [[1]] [1%Z]] in
  py_new 2 = Ok w0 /\ Forall (keeps_books (Z.to_nat 2)) ks /\ py_run w0 (ks ++ [PySolve c0 None o]) = Ok w /\ GetDualVariables w = Ok [(1, 1); (4, 4); (1, 1)]%nat.
Proof.
  intros c0 o. eexists _, _. cbv zeta. split; [reflexivity|]. split; [|split; [cbv -[Rplus Rmult IZR]; reflexivity|cbv -[Rplus Rmult IZR]; reflexivity]].
  repeat apply Forall_cons; cbn; auto. split; [repeat constructor; cbn; tauto|]. intros v [<-|[]]. lia.
Qed.

(** Whatever options are handed to [Solve], those that quadratic costs need are set,
    and with the options of the class [Maximize] leaves them unset. *)
Theorem C77_solve_options : forall c0 config, let c := APIConvertSolverConfiguration (solve_options c0 config) in
  enable_line_search c <> 0%Z /\ enable_rescaling c = 0%Z /\
  (forall c1, config = Some c1 -> max_iterations c = a_max_iterations c1 /\ inv_sqrt_mu_max c = a_inv_sqrt_mu_max c1 /\ prepare_dual_variables c = a_prepare_dual_variables c1).
Proof. intros c0 config. cbv zeta. split; [discriminate|]. split; [reflexivity|]. intros c1 ->. repeat split. Qed.

(** A client with a quadratic cost that calls [Maximize] with the options of the
    class gets the status of success and a vector of ones. *)
Theorem C77_maximize_cost_refuted : forall env w st b c0, p_quadratic (py_a w) = true -> Z.of_nat (length b) = py_m w ->
  py_maximize env w st b c0 None = Ok (1%Z, YVec (repeat 1 (length b))).
Proof.
  intros env w st b c0 Hq Hb. unfold py_maximize. rewrite Hb, Z.eqb_refl. cbn [negb].
  unfold CONEX_Maximize, ConexSolve. rewrite C30_violated_precondition.
  - cbn [bind rt_y rt_value py_array]. rewrite <- Hb, Nat2Z.id. reflexivity.
  - unfold set_objective, AddLinearCost. destruct (negb _); exact Hq.
  - left. reflexivity.
Qed.
Example C77_cost_example : exists w0 w, py_new 1 = Ok w0 /\ py_run w0 [PyNewQuadraticCost; PyUpdateQuadraticCostMatrix 0 2 0 0] = Ok w /\
  p_quadratic (py_a w) = true /\ py_m w = 1%Z /\ forall env st c0, py_maximize env w st [3] c0 None = Ok (1%Z, YVec [1]).
Proof.
  eexists _, _. split; [reflexivity|]. split; [cbv -[Rplus Rmult IZR]; reflexivity|]. split; [reflexivity|]. split; [reflexivity|].
  intros env st c0. apply (C77_maximize_cost_refuted env _ st [3] c0); reflexivity.
Qed.

(** [Maximize] never returns more numbers than the array has, and rejects objectives
    of the wrong length. *)
Theorem C77_vector : forall env w st b c0 config s y, py_maximize env w st b c0 config = Ok (s, YVec y) ->
  (length y <= length b)%nat /\ Z.of_nat (length b) = py_m w.
Proof.
  intros env w st b c0 config s y E. unfold py_maximize in E. destruct (Z.eqb_spec (Z.of_nat (length b)) (py_m w)) as [Hb|Hb]; [|discriminate]. cbn [negb] in E. split; auto.
  apply bind_ok in E as ([r|] & _ & E); [|discriminate]. apply bind_ok in E as (z & E1 & E). injection E as _ ->. rewrite <- Hb in E1.
  destruct (rt_y _ r); cbn [py_array] in E1; rewrite ?Nat2Z.id in E1.
  - injection E1 as <-. rewrite repeat_length. auto.
  - discriminate.
  - discriminate.
  - destruct (Nat.ltb_spec (length b) (length y0)); [discriminate|]. injection E1 as ->. lia.
Qed.

(** A sparse matrix inequality on no variables, on one that the object does not have,
    or with another number of matrices is an exception. *)
Theorem C77_sparse_rejected : forall w m As C vars, vars = [] \/ (exists v, In v vars /\ (py_m w <= v)%Z) \/ length vars <> length As ->
  py_step w (PyAddSparseLMI m As C vars) = Throw.
Proof.
  intros w m As C vars H. cbn [py_step]. destruct (Nat.eqb_spec (length vars) 0) as [H0|H0]; [reflexivity|].
  destruct (too_large vars (py_m w)) eqn:Et; [reflexivity|]. destruct (Nat.eqb_spec (length vars) (length As)) as [Hl|Hl]; [|reflexivity].
  exfalso. destruct H as [->|[(v & Hv & Hm)|H]]; [auto| |auto]. unfold too_large in Et.
  assert (existsb (fun v => (py_m w <? v + 1)%Z) vars = true); [|congruence]. apply existsb_exists. exists v. split; auto. apply Z.ltb_lt. lia.
Qed.
Example C77_sparse_example : exists w, py_new 2 = Ok w /\ py_step w (PyAddSparseLMI 1 [[[1]]] [[1]] [2%Z]) = Throw.
Proof. eexists. split; [reflexivity|]. apply C77_sparse_rejected. right; left. exists 2%Z. cbn. split; [auto|lia]. Qed.

(** The object made without an argument has no variables: after rows are added
    every solve throws. *)
Theorem C77_no_argument_refuted : exists w0 w, py_new (-1) = Ok w0 /\ py_run w0 [PyAddLinearInequality 1 [[1]] [1] true] = Ok w /\ py_m w = 1%Z /\
  forall env st c0, py_maximize env w st [1] c0 None = Throw.
Proof.
  eexists _, _. split; [reflexivity|]. split; [cbv -[Rplus Rmult IZR]; reflexivity|]. split; [reflexivity|].
  intros env st c0. unfold py_maximize, CONEX_Maximize, ConexSolve, Solve. cbn [py_a py_m length Z.of_nat Pos.of_succ_nat Z.eqb Pos.eqb negb].
  match goal with |- context [Initialize ?p ?a ?b] => assert (Initialize p a b = Throw) as -> by (cbv -[Rplus Rmult IZR Ropp]; reflexivity) end. reflexivity.
Qed.

(** Cones, rows and costs that are filled in later are counted without a shape:
    [GetDualVariables] raises an exception. *)
Theorem C77_missing_shape_refuted : forall k w0 w, In k [PyNewLorentzCone 2; PyNewLinearInequality 1; PyNewQuadraticCost] ->
  py_new 1 = Ok w0 -> py_run w0 [k] = Ok w -> GetDualVariables w = Throw.
Proof.
  intros k w0 w Hk E0 E. injection E0 as <-. destruct Hk as [<-|[<-|[<-|[]]]]; cbv -[Rplus Rmult IZR] in E; injection E as <-; reflexivity.
Qed.
Example C77_missing_shape_example : forall k, In k [PyNewLorentzCone 2; PyNewLinearInequality 1; PyNewQuadraticCost] ->
  exists w0 w, py_new 1 = Ok w0 /\ py_run w0 [k] = Ok w.
Proof. intros k Hk. destruct Hk as [<-|[<-|[<-|[]]]]; eexists _, _; (split; [reflexivity|]); cbv -[Rplus Rmult IZR]; reflexivity. Qed.

(** Bounds that do not count add no constraint but a shape: the next matrix is
    written into the array of the bounds, which is too short. *)
Theorem C77_overflow_refuted : forall c0 o, exists w0 w, py_new 1 = Ok w0 /\
  py_run w0 [PyAddLinearInequalities 1 [([1], - 10 ^ 9, 10 ^ 9)]; PyNewLMI 2 1; PySolve c0 None o] = Ok w /\ GetDualVariables w = UB.
Proof.
  intros c0 o. assert (PreprocessModel.PreprocessLinearInequality [([1], - 10 ^ 9, 10 ^ 9)] = Some (PreprocessModel.mkSplit [] [])) as HP.
  { unfold PreprocessModel.PreprocessLinearInequality, PreprocessModel.preprocess, PreprocessModel.preprocess_row.
    destruct (Req_EM_T (- 10 ^ 9) (10 ^ 9)); [lra|]. destruct (Rlt_dec (10 ^ 9) 100000000); [lra|]. destruct (Rlt_dec (-100000000) (- 10 ^ 9)); [lra|reflexivity]. }
  eexists _, _. split; [reflexivity|]. split.
  - cbn [py_run py_step api_step py_a]. rewrite HP. cbn [PreprocessModel.sp_ineq PreprocessModel.sp_eq length Nat.ltb Nat.leb bind]. cbv -[Rplus Rmult IZR]. reflexivity.
  - cbv -[Rplus Rmult IZR]. reflexivity.
Qed.

(** A matrix inequality that the program rejects is counted. *)
Theorem C77_rejected_refuted : exists w0 w, py_new 2 = Ok w0 /\ py_run w0 [PyAddSparseLMI 1 [[[1]]; [[1]]] [[1]] [0; 0]%Z; PyAddLinearInequality 2 [[1; 0]; [0; 1]] [1; 1] true] = Ok w /\
  NumberOfConstraints (py_a w) = 1%nat /\ py_count w = 2%nat /\ exists ct, nth_error (p_eqs (py_a w)) 0 = Some ct /\ entries (ct_data ct) = Some 2%nat /\ nth_error (py_c w) 0 = Some (1, 1)%nat.
Proof. eexists _, _. split; [reflexivity|]. split; [cbv -[Rplus Rmult IZR]; reflexivity|]. split; [reflexivity|]. split; [reflexivity|]. eexists. split; [reflexivity|]. split; reflexivity. Qed.

(** With at most the first constraint a vector, [x_dot_s] is the sum; the smallest
    eigenvalues are appended to those of earlier calls. *)
Theorem C77_errors : forall S X l, (forall o, In o (tl l) -> ob_vector o = false) ->
  ComputeErrors S X l = (total ob_dot l, S ++ map ob_s l, X ++ map ob_x l).
Proof.
  assert (forall l d S X, (forall o, In o l -> ob_vector o = false) ->
    fold_left (fun acc o => match acc with (d, s, x) => (if ob_vector o then ob_dot o else d + ob_dot o, s ++ [ob_s o], x ++ [ob_x o]) end) l (d, S, X)
    = (d + total ob_dot l, S ++ map ob_s l, X ++ map ob_x l)) as H.
  { induction l as [|o l IH]; intros d S X Hl.
    - cbn. rewrite !app_nil_r. unfold total. cbn. rewrite Rplus_0_r. reflexivity.
    - cbn [fold_left]. rewrite IH by (intros; apply Hl; right; auto). rewrite (Hl o (or_introl eq_refl)). unfold total. cbn [fold_right map].
      rewrite <- !app_assoc. cbn [app]. f_equal. f_equal. lra. }
  intros S X [|o l] Hl.
  - cbn. rewrite !app_nil_r. reflexivity.
  - unfold ComputeErrors. cbn [fold_left]. rewrite H by exact Hl. unfold total. cbn [fold_right map]. rewrite <- !app_assoc. cbn [app]. f_equal. f_equal.
    destruct (ob_vector o); lra.
Qed.
Example C77_errors_example : ComputeErrors [] [] [mkObs true 1 2 3; mkObs false 4 5 6] = (5, [2; 5], [3; 6]).
Proof. rewrite C77_errors; [|intros o [<-|[]]; reflexivity]. unfold total. cbn. f_equal. f_equal. lra. Qed.

(** With two vectors only the last product is reported, and the lists of a second
    call begin with those of the first. *)
Theorem C77_errors_refuted : exists l d S X, ComputeErrors [] [] l = (d, S, X) /\ d = 0 /\ total ob_dot l = 7 /\ S = [1; 2] /\
  ComputeErrors S X [mkObs true 0 9 9] = (0, [1; 2; 9], [1; 2; 9]).
Proof.
  exists [mkObs true 7 1 1; mkObs true 0 2 2]. eexists _, _, _. split; [reflexivity|]. split; [reflexivity|]. split; [unfold total; cbn; lra|]. split; reflexivity.
Qed.
(** After a solve that recorded iterations up to [en_i e], [GetIterationStats] returns
    one record per iteration, in order. *)
Theorem C77_statistics : forall B p n c r e t w, session B p n -> starts p c -> limit_fits p c ->
  Solve B p n c = Ok (Returned B r) -> rt_log B r = e :: t -> py_a w = rt_prog B r ->
  PyGetIterationStats w = Ok (map Some (seq 0 (S (en_i e)))).
Proof.
  intros B p n c r e t w Hs H Hl E El Ew. unfold PyGetIterationStats, GetIterationNumberStats. rewrite Ew.
  destruct (C28_query B p n c r e t (-1) Hs H Hl E El) as (_ & Q & _). rewrite Q by lia. cbn [bind iteration_number].
  replace (Z.to_nat (Z.of_nat (S (en_i e)) + -1) + 1)%nat with (S (en_i e)) by lia. apply mapM_all. intros i Hi. apply in_seq in Hi.
  destruct (C28_query B p n c r e t (Z.of_nat i) Hs H Hl E El) as (Q' & _). rewrite Q' by lia. rewrite Nat2Z.id. reflexivity.
Qed.
Example C77_statistics_example : exists r e t, session (toy true 1 2) toy_program (mkNum tt []) /\ starts toy_program (toy_config 0 1) /\
  limit_fits toy_program (toy_config 0 1) /\ Solve (toy true 1 2) toy_program (mkNum tt []) (toy_config 0 1) = Ok (Returned _ r) /\ rt_log _ r = e :: t /\
  PyGetIterationStats (mkPy (rt_prog _ r) 0 [] 1) = Ok [Some 0%nat].
Proof.
  destruct C28_example as (r & e & t & H1 & H2 & H3 & H4 & H5 & H6 & _). exists r, e, t. repeat (split; [assumption|]).
  unfold PyGetIterationStats, GetIterationNumberStats. cbn [py_a]. rewrite H6. cbn [bind iteration_number Nat.add seq mapM]. change (Z.of_nat 0) with 0%Z.
  destruct (C28_query _ _ _ _ _ _ _ 0 H1 H2 H3 H4 H5) as (Q & _). rewrite Q by lia. reflexivity.
Qed.

(** Before the first solve the method is undefined, whatever was added. *)
Theorem C77_statistics_refuted : forall m w0 ks w, py_new m = Ok w0 -> Forall (fun k => ~ py_solves k) ks -> py_run w0 ks = Ok w ->
  PyGetIterationStats w = UB.
Proof.
  intros m w0 ks w E0 F E.
  assert (forall p k p' r, fresh_state p -> ~ is_solve k -> api_step p k = Ok (p', r) -> fresh_state p') as HS.
  { intros p k p' r Hp Hk E1. apply (run_fresh [k] p p' [r] Hp); [constructor; auto|]. cbn [api_run]. rewrite E1. reflexivity. }
  assert (fresh_state (py_a w0)) as H0.
  { unfold py_new in E0. destruct (0 <=? m)%Z.
    - apply bind_ok in E0 as ([p r] & E1 & E0). injection E0 as <-. apply (HS CONEX_CreateConeProgram _ p r) in E1; auto. repeat split.
    - injection E0 as <-. repeat split. }
  assert (forall ks w1, fresh_state (py_a w1) -> Forall (fun k => ~ py_solves k) ks -> py_run w1 ks = Ok w -> fresh_state (py_a w)) as HR.
  { clear - HS. induction ks as [|k ks IH]; intros w1 H1 F E; cbn [py_run] in E; [injection E as <-; auto|].
    apply bind_ok in E as (w2 & E1 & E2). inversion F as [|? ? Fk F']; subst. apply (IH w2); auto.
    destruct k; cbn [py_step py_solves] in E1, Fk; try tauto; unfold demanded in E1;
      repeat match type of E1 with (if ?b then _ else _) = _ => destruct b; try discriminate end;
      apply bind_ok in E1 as ([pq rq] & Es & E1); injection E1 as <-; cbn [py_a];
      try (apply bind_ok in Es as ([ph rh] & Es & E3); destruct (rp_return rh =? 0)%Z; try discriminate; injection E3 as <- <-);
      (eapply HS; [exact H1| |exact Es]); cbn; tauto. }
  destruct (HR ks w0 H0 F E) as (_ & _ & _ & H4). unfold PyGetIterationStats, GetIterationNumberStats. rewrite H4. reflexivity.
Qed.
Example C77_statistics_refuted_example : exists w0 w, py_new 1 = Ok w0 /\ py_run w0 [PyNewLMI 2 1] = Ok w.
Proof. eexists _, _. split; [reflexivity|]. cbv -[Rplus Rmult IZR]; reflexivity. Qed.
Print Assumptions C77_buffers.
Print Assumptions C77_after_solve.
Print Assumptions C77_solve_options.
Print Assumptions C77_maximize_cost_refuted.
Print Assumptions C77_no_argument_refuted.
Print Assumptions C77_missing_shape_refuted.
Print Assumptions C77_overflow_refuted.
Print Assumptions C77_rejected_refuted.
Print Assumptions C77_errors.
Print Assumptions C77_errors_refuted.
Print Assumptions C77_vector.
Print Assumptions C77_sparse_rejected.
Print Assumptions C77_statistics.
Print Assumptions C77_statistics_refuted.
