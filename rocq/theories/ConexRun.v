(** Runs of the solve loop with the real constraint operations on a problem with
    one variable and one inequality: maximise [b y] subject to [y <= 1]. *)
From Coq Require Import List Arith ZArith Reals Bool Lia Lra.
From Verif Require Import Base BaseFacts LayoutModel SupernodeModel TriWorkspaceModel AssemblerModel DenseModel BlockModel KktModel
  ProgramModel ApiModel DivergenceModel SolveModel LinearModel ConcreteBackend Spec_Linear Spec_Assembly Spec_Program Spec_Solve Spec_Conex
  SolveProofs SolveFacts SolveStats SolveLast Prop_Solve ConexFacts ConexStep ConexKkt ConexBlocks ConexNewton ConexDefinite ConexTotal ToyBackend.
Import ListNotations.
Open Scope R_scope.

Definition line_program (b : R) : program := fst (AddLinearCost toy_program [- b]).

(** The centering parameter is fixed: [inv_sqrt_mu] is 10 throughout. *)
Definition line_config (dual final limit : Z) (tol : R) : config := {|
  prepare_dual_variables := dual; initialization_mode := 0; inv_sqrt_mu_max := 10;
  minimum_mu := 0; maximum_mu := / 100 - / 10 ^ 15; divergence_upper_bound := 1; enable_line_search := 1;
  dinf_upper_bound := 1; final_centering_steps := final; final_centering_tolerance := tol;
  initial_centering_steps_warmstart := 0; initial_centering_steps_coldstart := 0;
  warmstart_abort_threshold := 2; max_iterations := limit; iterative_refinement_iterations := 0;
  infeasibility_threshold := 100000; kkt_error_tolerance := 10000000000; enable_rescaling := 0;
  kkt_solver := 0 |}.

Definition line_ready (b : R) (limit : nat) : program :=
  match Initialize (clear (line_program b)) true limit with Ok p => p | _ => new_program 0 end.

Lemma line_build : exists d o bs, build [[0%nat]] [[]] = Ok (d, o, bs) /\ forall k, In k bs -> direct_update k = true -> ~ In (-1)%Z (b_sn k).
Proof.
  destruct (build [[0%nat]] [[]]) as [[[d o] bs]| | |] eqn:E; vm_compute in E; try discriminate. exists d, o, bs. split; auto.
  injection E as <- <- <-. intros k [<-|[]] _ [H|[]]. discriminate H.
Qed.

Lemma line_well b : well_built (line_program b).
Proof.
  destruct line_build as (d & o & bs & E & H).
  assert (forall v, covered [[0%nat]] v <-> (v < 1)%nat) as HC.
  { intros v. split; [intros (c & [<-|[]] & [<-|[]]); lia|]. intros Hv. exists [0%nat]. split; [left; auto|left; lia]. }
  constructor; cbn.
  - constructor; cbn; [|discriminate|auto|].
    + intros c [<-|[]]. repeat constructor. intros [].
    + intros [|e] He; [|lia]. exists [0%nat]. auto.
  - auto.
  - intros [|[|]] c Hc; try discriminate; injection Hc as <-; reflexivity.
  - exact HC.
  - intros [|[|]] j v []; auto.
  - intros [|[|]] v [].
  - intros d' o' bs' E'. change (build [[0%nat]] [[]] = Ok (d', o', bs')) in E'. rewrite E in E'. injection E' as <- <- <-. auto.
Qed.

Lemma line_starts b c : starts (line_program b) c.
Proof. apply starts_iff. split; [reflexivity|cbn; lia]. Qed.
Lemma line_consistent b : consistent (line_program b).
Proof. intros [|[|]] c Hc; try discriminate. injection Hc as <-. cbn. repeat split; auto. discriminate. Qed.
Lemma line_listed b : listed (line_program b).
Proof. split; [intros i [<-|[]]; cbn; lia|]. split; [|split]; intros [|[|]] c; intros; try discriminate; left; auto. Qed.
Lemma line_rectangular b : rectangular (line_program b).
Proof. intros [|[|]] c cols A rhs Hc; try discriminate. injection Hc as <-. intros [= <- <- <-]. repeat constructor. Qed.
Lemma line_factorable b : factorable (line_program b).
Proof.
  right. split; [|split; [|split]].
  - intros [|[|]] c Q y Hc; try discriminate. injection Hc as <-. discriminate.
  - intros [|[|]] c A rhs Hc; try discriminate. injection Hc as <-. discriminate.
  - intros dv [<-|[]]. auto.
  - intros z H _ _ _ [|v] Hv; [|cbn in Hv; lia].
    specialize (H 0%nat _ 1%nat [[1]] [1] 0%nat eq_refl eq_refl ltac:(cbn; lia)). unfold row_value in H. cbn in H. lra.
Qed.

Lemma line_initialized b N : Initialize (clear (line_program b)) true N = Ok (line_ready b N).
Proof. unfold line_ready. destruct (Initialize (clear (line_program b)) true N) eqn:E; auto; vm_compute in E; discriminate. Qed.

(** Not a number and failing eigenvalue estimates, for programs that need none. *)
Definition silent : environment := mkEnv (fun _ _ => 0) (fun _ _ _ _ _ => None) (fun _ _ b => b).
Definition line_state (w : R) (t1 t2 : option (list R)) : list cstate := [SLinear (mkLin (Some [w]) t1 t2)].

Section Line.
  Variable nf : environment.
  Variable b : R.
  Variable N : nat.
  Notation p := (line_ready b N).
  Notation B := (conex (Refine 0) nf).

  Lemma ready_fields : p_eqs p = p_eqs (line_program b) /\ p_cliques p = [[0%nat]] /\ p_duals p = [[]] /\ p_constraints p = [0%nat] /\
    p_cost p = p_cost (line_program b) /\ p_quadratic p = false /\ SizeOfKKTSystem p = 1%nat.
  Proof.
    destruct (Initialize_fields _ _ _ _ (line_initialized b N)) as (F1 & F2 & F3 & F4 & F5 & F6 & F7 & F8 & F9).
    rewrite F1, F2, F4, F5, F6, F7. unfold SizeOfKKTSystem. rewrite F6, F8. repeat split; reflexivity.
  Qed.
  Lemma ready_stats : p_stats p = Some (mkStats N None).
  Proof. destruct (Initialize_fields _ _ _ _ (line_initialized b N)) as (_ & _ & _ & _ & _ & _ & _ & _ & F9). rewrite orb_true_r in F9. apply F9. Qed.
  Lemma ready_ok : ready p.
  Proof.
    apply (initialized_ready (line_program b) (line_config 0 0 (Z.of_nat N) 0) N); [apply line_well|left; right; auto|]. apply line_initialized.
  Qed.

  (** The system for the weight [w]. *)
  Lemma line_system st w t1 t2 : w <> 0 -> ct_cons st = line_state w t1 t2 ->
    exists st0 st1, con_assemble p st = Ok st0 /\ con_factor 0 p st0 = Ok (st1, true) /\
      (exists t1', ct_cons st1 = line_state w t1' t2) /\
      ct_sys st1 = mkRhs [w] [w * w] w (w * w) /\ ct_sys st0 = mkRhs [w] [w * w] w (w * w) /\
      forall st2 r, ct_fact st2 = ct_fact st1 -> con_solve 0 p st2 [r] = Ok [r / (w * w)].
  Proof.
    intros Hw Hst. destruct ready_fields as (F1 & F2 & F3 & F4 & F5 & F6 & F7). pose proof ready_ok as R.
    assert (shaped shape_ok p st) as G.
    { split; [rewrite Hst, F1; reflexivity|]. rewrite F1. intros [|[|]] co s Hc Hs; try discriminate. injection Hc as <-. rewrite Hst in Hs. injection Hs as <-.
      cbn. exists [w]. repeat split; auto. }
    assert (consistent p) as HC by (unfold consistent; rewrite F1; apply line_consistent).
    assert (rectangular p) as HT by (unfold rectangular; rewrite F1; apply line_rectangular).
    assert (factorable p) as HF.
    { pose proof (line_factorable b) as HF. unfold factorable, definite, convex in *. rewrite F1, F2, F3, F7. exact HF. }
    destruct (assemble_total p R HC st G) as (st0 & E0 & _). destruct (factor_ok (Refine 0) p R ltac:(intros; discriminate) st st0 G E0) as (st1 & ok & E1 & Hok & Hs).
    specialize (Hok HT (or_introl HF)). subst ok. specialize (Hs eq_refl).
    destruct (assembled p st st0 R E0) as (q & Q1 & Q2 & Q3 & Q4 & Q5 & Q6 & Q7 & Q8 & Q9).
    destruct (solved_system (Refine 0) p st st0 q st1 R E0 Q1 Q9 E1) as (E & S1 & S2 & _ & _ & S4 & _).
    destruct (con_factor_core _ _ _ _ _ E1) as [K1 K2].
    assert (exists t1' G, q = [(SLinear (mkLin (Some [w]) t1' t2), mkSchur G (mkRhs [w] [w * w] w (w * w)))] /\ G 0%nat 0%nat = w * w) as (t1' & G0 & Eq & HG).
    { destruct Q1 as [L Q1]. rewrite F1 in L, Q1. destruct q as [|[s' sc] [|]]; try discriminate L.
      destruct (Q1 0%nat _ eq_refl) as (s & Hs' & E2). rewrite Hst in Hs'. injection Hs' as <-. cbn in E2. injection E2 as <- <-.
      eexists _, _. split; [refine (f_equal (fun r => [(_, mkSchur _ r)]) _)|cbn; ring]. f_equal; cbn; try ring; f_equal; ring. }
    exists st0, st1. split; auto. split; auto. split; [exists t1'; rewrite K1, Q2, Eq; reflexivity|].
    assert (ct_sys st0 = mkRhs [w] [w * w] w (w * w)) as ES.
    { rewrite F1, Eq, ?F2, ?F7 in *. destruct (ct_sys st0) as [AW AQc wc cQc]. cbn [r_AW r_AQc r_wc r_cQc] in *.
      destruct AW as [|a [|]], AQc as [|a' [|]]; try discriminate. specialize (Q5 0%nat). specialize (Q6 0%nat). cbn in Q5, Q6, Q7, Q8.
      f_equal; [f_equal; lra|f_equal; lra|lra|lra]. }
    split; [congruence|]. split; auto.
    intros st2 r Hf. destruct (Hs st2 [r] Hf) as (y & Ey & Hy); [rewrite F7; auto|]. rewrite Ey. f_equal. rewrite F7 in Hy.
    destruct y as [|y [|]]; try discriminate. destruct (S4 st2 [r] [y] Hf Ey) as (_ & _ & S). specialize (S (or_introl eq_refl) 0%nat). rewrite F7 in S.
    specialize (S ltac:(lia)). rewrite S2 in S by (intros dv; rewrite F3; intros [<-|[]]; auto).
    unfold matrix_of in S. rewrite F2, Eq in S. unfold row_times, sum_of_blocks, scattered, total, msum in S. cbn in S. rewrite HG in S.
    f_equal. apply (Rmult_eq_reg_r (w * w)); [|apply Rmult_integral_contrapositive_currified; auto]. field_simplify; [lra|auto].
  Qed.

  Lemma line_weights st w : weights st = [Some (WLin [w])] -> exists t1 t2, ct_cons st = line_state w t1 t2.
  Proof.
    unfold weights. destruct (ct_cons st) as [|s [|]]; try discriminate. cbn. destruct s as [[[W|] t1 t2]| | |[n0 [W|] d0]| |]; try discriminate. cbn. intros [= ->].
    exists t1, t2. reflexivity.
  Qed.

  Lemma line_prepare st w t1 t2 o y : ct_cons st = line_state w t1 t2 -> op_affine o = false ->
    let d := w * (y - op_c_weight o) + op_e_weight o in
    exists st' q, PrepareStep B p st o [y] = Ok (st', (Rabs d, q)) /\ ct_cons st' = line_state w t1 (Some [d]).
  Proof.
    intros Hst Ho d. destruct ready_fields as (F1 & F2 & F3 & F4 & F5 & F6 & F7).
    unfold PrepareStep, NumberOfConstraints. rewrite F1, F2. change (length (p_eqs (line_program b))) with 1%nat. cbn [seq foldM].
    cbn [at_ nth_error bind Vars mapM idx bk_prepare conex]. unfold con_prepare, get_con.
    rewrite F1, Hst. cbn -[Rabs linear_prepare]. unfold linear_prepare.
    rewrite Ho. cbn -[Rabs].
    match goal with |- context [Rabs ?x] => replace x with d by (unfold d; ring) end.
    destruct (Rltb_spec (-1) (Rabs d)) as [_|H]; [|pose proof (Rabs_pos d); lra].
    eexists _, _. split; [reflexivity|]. cbn. rewrite Hst. unfold line_state. cbn.
    reflexivity.
  Qed.

  Lemma line_take st w t1 d o : ct_cons st = line_state w t1 (Some [d]) -> op_affine o = false ->
    exists st' t2, TakeStep B p st o = Ok st' /\ ct_cons st' = line_state (w * exp (op_step_size o * d)) t1 t2.
  Proof.
    intros Hst Ho. destruct ready_fields as (F1 & F2 & F3 & F4 & F5 & F6 & F7).
    unfold TakeStep. rewrite F4. cbn [foldM bk_take conex]. unfold con_take, get_con. rewrite F1, Hst. cbn. unfold linear_take. rewrite Ho. cbn.
    destruct (Req_EM_T (op_step_size o) 1) as [E|E]; cbn; eexists _, _; (split; [reflexivity|]); cbn; rewrite Hst; unfold line_state; cbn; [|reflexivity].
    rewrite E, Rmult_1_l. reflexivity.
  Qed.
  Lemma line_identity st : ct_cons st = [SLinear (mkLin None None None)] -> ct_cons (SetIdentity B p st) = line_state 1 None None.
  Proof.
    intros Hst. destruct ready_fields as (F1 & _ & _ & F4 & _). unfold SetIdentity. rewrite F4. cbn [fold_left bk_identity conex].
    unfold con_identity, get_con. rewrite F1, Hst. cbn. rewrite Hst. reflexivity.
  Qed.

  Definition line_area (a0 : option R) : list (option R) := upd (upd (upd (repeat None (2 * N + 2)) (b_cell N) (Some 1)) (c_cell N) (Some 1)) 0 a0.
  Lemma line_cells a0 : (0 < N)%nat -> nth_error (line_area a0) (b_cell N) = Some (Some 1) /\ nth_error (line_area a0) (c_cell N) = Some (Some 1) /\
    nth_error (line_area a0) 0 = Some a0.
  Proof.
    intros HN. unfold line_area, b_cell, c_cell. split; [|split].
    - rewrite nth_error_upd_neq by lia. rewrite nth_error_upd_neq by lia. apply nth_error_upd_eq. rewrite repeat_length. lia.
    - rewrite nth_error_upd_neq by lia. apply nth_error_upd_eq. rewrite upd_length, repeat_length. lia.
    - apply nth_error_upd_eq. rewrite !upd_length, repeat_length. lia.
  Qed.

  Variable dual final : Z.
  Variable tol : R.
  Notation c := (line_config dual final (Z.of_nat N) tol).
  Hypothesis Hfinal : (0 <= final < Z.of_nat N)%Z.

  Lemma line_floor : lower_limit c = Ok 10.
  Proof.
    unfold lower_limit. cbn [maximum_mu line_config]. replace (/ 10 ^ 15 + (/ 100 - / 10 ^ 15)) with (/ 100) by lra.
    destruct (Rltb_spec 0 (/ 100)); [|lra]. replace (1 / / 100) with (10 * 10) by field. rewrite sqrt_square by lra. reflexivity.
  Qed.
  Lemma line_limits x : ApplyLimits x 10 10 = 10.
  Proof. unfold ApplyLimits. destruct (Rltb_spec 10 x); [destruct (Rltb_spec 10 10); [lra|auto]|destruct (Rltb_spec x 10); lra]. Qed.

  Lemma line_first s st0 : l_num s = mkNum st0 (line_area None) -> ct_cons st0 = line_state 1 None None -> l_ism s = 0 -> l_max s = 10 ->
    l_kkt_error s = XFin 0 -> l_log s = [] -> l_centering_steps s = 0%Z ->
    let d := 10 * b - 1 in
    exists s', iteration B p c N 0 [b] (Rank B p) 0 s = Ok (if Rleb (Rabs d) tol then VBreak s' false else VNext s') /\
      nm_area (l_num s') = line_area (Some 10) /\ l_num_iter s' = Some 1%nat /\ l_y s' = Some [10 * (b + 1) - 2] /\ l_ism s' = 10 /\ l_max s' = 10 /\
      l_centering_steps s' = 0%Z /\
      (exists t1 t2, ct_cons (nm_bk (l_num s')) = line_state (exp (step_size (Rabs d) * d)) t1 t2) /\
      l_log s' = [mkEntry 0 10 10 10 (Rabs d) (step_size (Rabs d)) false] /\ l_step s' = step_size (Rabs d).
  Proof.
    intros Hn Hst Hi Hm Hk Hl Hcs d. destruct ready_fields as (F1 & F2 & F3 & F4 & F5 & F6 & F7). pose proof ready_ok as RD.
    destruct (line_cells None ltac:(lia)) as (C1 & C2 & _).
    unfold iteration. change (bk_state B) with cst in *. rewrite Hn, Hi, Hm, Hk, Hcs. cbn [line_config initialization_mode kkt_error_tolerance max_iterations final_centering_steps enable_rescaling Z.eqb].
    destruct (Rleb_spec 10 0); [lra|]. cbn [xgt]. destruct (Rltb_spec 10000000000 0); [lra|].
    replace (Z.of_nat N - final <=? Z.of_nat 0)%Z with false by (symmetry; apply Z.leb_gt; lia). cbn [orb andb Nat.eqb nm_bk nm_area Nat.ltb Nat.leb negb].
    destruct (line_system st0 1 None None ltac:(lra) Hst) as (sta & stb & Ea & Eb & (t1 & Hb) & S1 & S0 & HS).
    change (bk_assemble B) with con_assemble. rewrite Ea. cbn [bind]. change (bk_factor B) with (con_factor (Refine 0)). rewrite Eb. cbn [bind negb].
    rewrite (cell_total _ _ _ C1), (cell_total _ _ _ C2). cbn [bind].
    assert (shaped shape_ok p stb) as G.
    { split; [rewrite Hb, F1; reflexivity|]. rewrite F1. intros [|[|]] co x Hc Hx; try discriminate. injection Hc as <-. rewrite Hb in Hx. injection Hx as <-.
      cbn. exists [1]. repeat split; auto. }
    assert (consistent p) as HC by (unfold consistent; rewrite F1; apply line_consistent).
    assert (listed p) as HL by (unfold listed; rewrite F1, F4; apply (line_listed b)).
    destruct (update_mu_total (Refine 0) nf p RD HC c stb [b] 1 1 (Rank B p) 0 G) as (u & Eu & Hu).
    { intros st2 r Hf Hr. rewrite F7 in *. destruct r as [|r [|]]; try discriminate. eexists. split; [apply HS; auto|auto]. }
    { rewrite F7. auto. } { rewrite S1, F7. auto. } { rewrite S1, F7. auto. }
    rewrite Eu. cbn [bind].
    destruct u as [[st2 ism]|].
    2:{ exfalso. apply (update_mu_demand B p c stb [b] 1 1 (Rank B p) 0); [lra| |exact Eu]. unfold quadratic_precondition. rewrite F6. reflexivity. }
    pose proof (update_mu_core _ _ _ _ _ _ _ _ _ _ _ _ Eu) as [W1 W2 W3 W4].
    assert (weights stb = [Some (WLin [1])]) as Wb by (unfold weights; rewrite Hb; reflexivity). rewrite Wb in W1.
    destruct (line_weights _ _ W1) as (u1 & u2 & Hst2).
    unfold finish_iteration. rewrite line_floor. cbn [bind]. cbn [line_config initialization_mode Z.eqb]. rewrite line_limits.
    rewrite (cell_total _ _ _ C1), (cell_total _ _ _ C2). cbn [bind]. change (bk_sys B st2) with (ct_sys st2). rewrite W4, S1.
    cbn [r_AW r_AQc r_wc r_cQc vscale map vplus vminus zip_ bind]. change (bk_solve B) with (con_solve (Refine 0)). rewrite (HS st2 _ W3). cbn [bind].
    match goal with |- context [PrepareStep B p st2 ?o [?y]] => destruct (line_prepare st2 1 u1 u2 o y Hst2 eq_refl) as (st3 & q & E3 & Hst3); set (yy := y) in * end.
    cbn [op_c_weight op_e_weight] in E3, Hst3.
    assert (yy = 10 * (b + 1) - 2) as Hyy by (unfold yy; field).
    assert (1 * (yy - 10 * 1) + 1 = d) as Hd by (rewrite Hyy; unfold d; ring). rewrite Hd in E3, Hst3. change (bk_state B) with cst in *.
    rewrite E3. cbn [bind]. rewrite andb_false_r. cbn [andb].
    match goal with |- context [TakeStep B p st3 ?o] => destruct (line_take st3 1 u1 d o Hst3 eq_refl) as (st4 & v2 & E4 & Hst4) end.
    change (bk_state B) with cst in *. rewrite E4. cbn [bind]. cbn [op_step_size] in Hst4. rewrite Rmult_1_l in Hst4.
    replace (length (line_area None) <=? 0)%nat with false.
    2:{ symmetry. apply Nat.leb_gt. unfold line_area. rewrite !upd_length, repeat_length. lia. }
    destruct (Rleb_spec 10 10); [|lra]. rewrite !Rabs_Rabsolu. cbn [orb andb final_centering_tolerance line_config].
    match goal with |- context [VNext ?x] => match x with mkL _ _ _ _ _ _ _ _ _ _ _ _ _ => exists x end end.
    split; [destruct (Rleb (Rabs d) tol); reflexivity|]. cbn [l_num nm_area nm_bk l_num_iter l_y l_ism l_max l_centering_steps l_log]. rewrite Hl, Hyy.
    repeat split; auto; [|exists u1, v2; auto].
    unfold line_area. generalize (upd (upd (repeat (@None R) (2 * N + 2)) (b_cell N) (Some 1)) (c_cell N) (Some 1)). intros [|a l]; reflexivity.
  Qed.

  (** The dual variables prepared at the end. *)
  Lemma line_dual st w t1 t2 : w <> 0 -> ct_cons st = line_state w t1 t2 ->
    exists st0 st1 y2 st2 r t1' t2', con_assemble p st = Ok st0 /\ con_factor 0 p st0 = Ok (st1, true) /\
      r_AW (ct_sys st1) = [w] /\ con_solve 0 p st1 [1 * (10 * b) - w] = Ok [y2] /\
      PrepareStep B p st1 (mkStep true 10 0 0 (step_size (Rabs (10 * b - 1)))) [y2] = Ok (st2, r) /\
      ct_cons st2 = line_state (10 * b) t1' t2'.
  Proof.
    intros Hw Hst. destruct (line_system st w t1 t2 Hw Hst) as (st0 & st1 & E0 & E1 & (t1' & H1) & S1 & _ & HS).
    destruct ready_fields as (F1 & F2 & F3 & F4 & F5 & F6 & F7).
    exists st0, st1, ((1 * (10 * b) - w) / (w * w)).
    unfold PrepareStep, NumberOfConstraints. rewrite F1, F2. change (length (p_eqs (line_program b))) with 1%nat. cbn [seq foldM].
    cbn [at_ nth_error bind Vars mapM idx bk_prepare conex]. unfold con_prepare, get_con. rewrite F1, H1. cbn.
    eexists _, _, _, _. split; [eauto|]. split; [eauto|]. split; [rewrite S1; auto|]. split; [apply HS; auto|]. split; [reflexivity|].
    cbn. rewrite H1. unfold line_state. cbn.
    refine (f_equal (fun x => [SLinear (mkLin (Some [x]) _ _)]) _). field. auto.
  Qed.

  Lemma line_finish s reached t1 t2 w : nm_area (l_num s) = line_area (Some 10) -> l_num_iter s = Some 1%nat -> l_y s = Some [10 * (b + 1) - 2] ->
    l_ism s = 10 -> w <> 0 -> ct_cons (nm_bk (l_num s)) = line_state w t1 t2 -> l_step s = step_size (Rabs (10 * b - 1)) ->
    exists st t1' t2', finish B p c N 1 [b] s reached =
      Ok (mkRet B (set_status (set_num_iter p (Some 1%nat)) (mkStatus (negb reached) 1 false false)) (mkNum st (line_area (Some 10)))
            (if negb reached then 1 else 0)%Z (YVec [(10 * (b + 1) - 2) / 10]) (l_log s)) /\
      ct_cons st = line_state (if (dual =? 0)%Z then w else 10 * b) t1' t2'.
  Proof.
    intros Ha Hn Hy Hi Hw Hst Hs. unfold finish. change (bk_state B) with cst in *. rewrite Ha, Hn, Hy, Hi.
    cbn [line_config prepare_dual_variables infeasibility_threshold].
    assert (mu_exceeds 10 100000 = false) as ->. { apply mu_exceeds_spec. lra. }
    destruct (line_cells (Some 10) ltac:(lia)) as (C1 & C2 & _). cbn [andb negb].
    destruct (dual =? 0)%Z; cbn [negb bind].
    - rewrite (cell_total _ _ _ C2). cbn [bind firstn map]. replace ((10 * (b + 1) - 2) / 10 / 1) with ((10 * (b + 1) - 2) / 10) by field. eexists _, _, _. split; [reflexivity|eauto].
    - destruct (line_dual _ _ _ _ Hw Hst) as (st0 & st1 & y2 & st2 & r & t1' & t2' & E0 & E1 & EA & E2 & E3 & H3).
      cbn [bk_assemble bk_factor conex bk_sys bk_solve_once]. rewrite E0. cbn [bind]. rewrite E1. cbn [bind]. rewrite (cell_total _ _ _ C1). cbn [bind].
      rewrite EA. cbn [vscale map vminus zip_ bind]. rewrite solve_once_zero by eauto. rewrite E2. cbn [bind]. rewrite Hs. change (bk_state B) with cst in *. rewrite E3. cbn [bind].
      rewrite (cell_total _ _ _ C2). cbn [bind firstn map]. replace ((10 * (b + 1) - 2) / 10 / 1) with ((10 * (b + 1) - 2) / 10) by field. eexists _, _, _. split; [reflexivity|eauto].
  Qed.
End Line.

(** The whole solve.  It reports success after one iteration, whatever the
    distance [10 b - 1] to the central path. *)
Lemma line_run nf b n dual final limit tol : (0 <= final < limit)%Z -> (final = 0%Z /\ (2 < limit)%Z \/ Rabs (10 * b - 1) <= tol) ->
  exists r, ConexSolve nf (line_program b) n (line_config dual final limit tol) = Ok (Returned _ r) /\
    rt_value _ r = 1%Z /\ st_solved (p_status (rt_prog _ r)) = true /\ st_primal_infeasible (p_status (rt_prog _ r)) = false /\
    rt_y _ r = YVec [(10 * (b + 1) - 2) / 10] /\
    rt_log _ r = [mkEntry 0 10 10 10 (Rabs (10 * b - 1)) (step_size (Rabs (10 * b - 1))) false] /\
    p_init (rt_prog _ r) = true /\
    (dual <> 0%Z -> GetDualVariable (rt_prog _ r) (rt_num _ r) 0 = Ok [b] /\ exists w, nth_error (ct_cons (nm_bk (rt_num _ r))) 0 = Some (SLinear w) /\ lw_W w = Some [10 * b]).
Proof.
  intros Hf Hor. set (c := line_config dual final limit tol). set (N := Z.to_nat limit).
  assert (limit = Z.of_nat N) as EN by (unfold N; lia). set (B := conex 0 nf). set (p2 := line_ready b N).
  change (ConexSolve nf (line_program b) n c) with (Solve B (line_program b) n c).
  change (conex (mode_of nf c) nf) with B.
  destruct (ready_fields b N) as (F1 & F2 & F3 & F4 & F5 & F6 & F7).
  set (s0 := start B (clear (line_program b)) p2 n c (mkStats N None)).
  assert (cost_vector p2 = [b]) as EC.
  { unfold cost_vector. fold p2 in F5, F7. rewrite F5, F7. cbn. repeat f_equal. lra. }
  destruct (line_first nf b N dual final tol ltac:(lia) s0 (SetIdentity B p2 (con_initialize p2 (nm_bk n)))) as (s' & E & A1 & A2 & A3 & A4 & A5 & A6 & (t1 & t2 & A7) & A8 & A9); try reflexivity.
  { unfold s0, start, Initialize_numeric. cbn [c line_config initialization_mode Z.eqb max_iterations]. rewrite orb_true_r. fold N.
    cbn [l_num]. unfold line_area. f_equal. destruct N; [lia|]. reflexivity. }
  change (bk_state (conex 0 nf)) with cst in *. rewrite <- EN in E. fold c p2 B in E.
  assert (exp (step_size (Rabs (10 * b - 1)) * (10 * b - 1)) <> 0) as Hw by (match goal with |- exp ?x <> 0 => pose proof (exp_pos x); lra end).
  assert (exists s2, loop B p2 c N 0 [b] (Rank B p2) N 0 s0 = Ok (VBreak s2 false) /\ l_num s2 = l_num s' /\ l_num_iter s2 = Some 1%nat /\ l_y s2 = l_y s' /\
    l_ism s2 = 10 /\ l_step s2 = l_step s' /\ l_log s2 = l_log s') as (s2 & EL & B1 & B2 & B3 & B4 & B5 & B6).
  { destruct N as [|N'] eqn:EN'; [lia|]. cbn [loop]. rewrite E. cbn [bind]. destruct (Rleb_spec (Rabs (10 * b - 1)) tol) as [Hle|Hle].
    - exists s'. repeat split; auto.
    - destruct Hor as [[-> Hlim]|Hor]; [|contradiction]. destruct N' as [|N']; [lia|]. cbn [loop]. unfold iteration. change (bk_state B) with cst in *.
      rewrite A4, A5, A6.
      destruct (Rleb_spec 10 10); [|lra]. cbn [orb andb c line_config final_centering_steps Z.leb Z.compare bind max_iterations].
      replace (limit - 1 <=? Z.of_nat 1)%Z with false by (symmetry; apply Z.leb_gt; lia).
      eexists. split; [reflexivity|]. cbn. auto 10. }
  change (bk_state B) with cst in *.
  destruct (line_finish nf b N dual final tol ltac:(lia) s2 false t1 t2 (exp (step_size (Rabs (10 * b - 1)) * (10 * b - 1)))) as (st & u1 & u2 & EF & HF);
    [rewrite B1; auto|auto|congruence|auto|auto|rewrite B1; auto|congruence|].
  rewrite <- EN in EF. fold c p2 B in EF.
  eexists. split.
  - rewrite (Solve_by_loop B _ n c p2 (mkStats N None) (VBreak s2 false)).
    + cbn [ss_max_iter]. replace (length (p_cost p2)) with 1%nat by (fold p2 in F5; rewrite F5; reflexivity). rewrite EC, EF. reflexivity.
    + reflexivity.
    + cbn. lia.
    + apply line_initialized.
    + apply ready_stats.
    + cbn [ss_max_iter]. rewrite EC. exact EL.
  - cbn [rt_value rt_prog rt_num rt_y rt_log negb set_status p_status st_solved st_primal_infeasible]. rewrite B6, A8. repeat split; auto.
    + unfold GetDualVariable, get_con. cbn [nm_bk nm_area].
      assert (forall x k, p_eqs (set_status (set_num_iter x k) (mkStatus true 1 false false)) = p_eqs x) as P1.
      { intros x k. unfold set_num_iter. destruct (p_stats x); reflexivity. }
      fold p2 in F1. rewrite P1, F1, HF. destruct (Z.eqb_spec dual 0); [contradiction|]. cbn [nth_error line_state p_eqs line_program toy_program].
      cbn [bind ct_data stored_dual]. cbn [p_status set_status st_primal_infeasible].
      assert (p_stats (set_status (set_num_iter p2 (Some 1%nat)) (mkStatus true 1 false false)) = Some (mkStats N (Some 1%nat))) as P2.
      { unfold set_num_iter, p2. rewrite ready_stats. reflexivity. }
      rewrite P2. cbn [ss_num_iter ss_max_iter]. destruct (line_cells N (Some 10) ltac:(lia)) as (C1 & C2 & C3).
      rewrite (cell_total _ _ _ C3), (cell_total _ _ _ C1). cbn. destruct (Req0_spec (10 * 1)); [lra|]. cbn. repeat f_equal. field.
    + cbn [nm_bk]. rewrite HF. destruct (Z.eqb_spec dual 0); [contradiction|]. eexists. split; reflexivity.
Qed.
