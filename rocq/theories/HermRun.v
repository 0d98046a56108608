(** A run of the solve loop on a problem with one variable and one complex Hermitian
    constraint of order 2: maximise [b y] subject to [[1/10, -iy; iy, 1/10] >= 0], that
    is [|y| <= 1/10]. *)
From Coq Require Import List Arith ZArith Reals Bool Lia Lra.
From Verif Require Import Base BaseFacts LayoutModel SupernodeModel TriWorkspaceModel AssemblerModel DenseModel BlockModel KktModel RSum
  ProgramModel ApiModel DivergenceModel SolveModel LinearModel ConcreteBackend Spec_Linear Spec_Assembly Spec_Program Spec_Solve Spec_Conex
  SolveProofs SolveFacts SolveStats SolveLast Prop_Solve ConexFacts ConexStep ConexKkt ConexBlocks ConexNewton ConexDefinite ConexTotal ToyBackend ConexRun.
From Verif Require Import SocLinks.
From Verif Require Spec_Hyper HyperFacts JordanModel JordanProofs JordanSteps LanczosModel HermLinks HermPairing.
Import ListNotations.
Open Scope R_scope.

Notation lmi_A := [[[[0; 0]; [0; 0]]; [[0; 1]; [-1; 0]]]].
Notation lmi_c := [[[/ 10; 0]; [0; / 10]]; [[0; 0]; [0; 0]]].
Definition lmi_base : program :=
  match AddConstraint (new_program 1) false (CHerm 2 2 lmi_A lmi_c) None with Ok (p, _) => p | _ => new_program 0 end.
Definition lmi_program (b : R) : program := fst (AddLinearCost lmi_base [- b]).
Definition lmi_ready (b : R) (limit : nat) : program :=
  match Initialize (clear (lmi_program b)) true limit with Ok p => p | _ => new_program 0 end.

Lemma lmi_well b : well_built (lmi_program b).
Proof.
  destruct line_build as (d & o & bs & E & H).
  assert (forall v, covered [[0%nat]] v <-> (v < 1)%nat) as HC.
  { intros v. split; [intros (c & [<-|[]] & [<-|[]]); lia|]. intros Hv. exists [0%nat]. split; [left; auto|left; lia]. }
  constructor; cbn.
  - constructor; cbn; [|discriminate|auto|].
    + intros c [<-|[]]. repeat constructor. intros [].
    + intros [|e] He; [|lia]. exists [0%nat]. auto.
  - auto.
  - intros [|[|]] c Hc; try discriminate; injection Hc as <-; reflexivity.
  - exact HC.
  - intros [|[|]] j v []; auto.
  - intros [|[|]] v [].
  - intros d' o' bs' E'. change (build [[0%nat]] [[]] = Ok (d', o', bs')) in E'. rewrite E in E'. injection E' as <- <- <-. auto.
Qed.

Lemma lmi_starts b c : starts (lmi_program b) c.
Proof. apply starts_iff. split; [reflexivity|cbn; lia]. Qed.
Lemma lmi_hermitian : Forall (hermitian_entries 2 2) (lmi_c :: lmi_A).
Proof.
  repeat apply Forall_cons; try apply Forall_nil; (split; [reflexivity|]; split; [repeat apply Forall_cons; try apply Forall_nil; (split; [reflexivity|repeat constructor])|]);
    intros [|[|t]] [|[|r]] [|[|c]] H1 H2 H3; try lia; unfold component; cbn; lra.
Qed.
Lemma lmi_consistent b : consistent (lmi_program b).
Proof. intros [|[|]] c Hc; try discriminate. injection Hc as <-. cbn [ct_data]. split; [lia|]. split; [auto|]. split; [reflexivity|apply lmi_hermitian]. Qed.
Lemma lmi_listed b : listed (lmi_program b).
Proof. split; [intros i [<-|[]]; cbn; lia|]. split; [|split]; intros [|[|]] c; intros; try discriminate; left; auto. Qed.
Lemma lmi_rectangular b : rectangular (lmi_program b).
Proof. intros [|[|]] c cols A rhs Hc; try discriminate. injection Hc as <-. discriminate. Qed.
Lemma lmi_equalities b : sized_equalities (lmi_program b).
Proof. intros [|[|]] co A rhs Hc; try discriminate. injection Hc as <-. discriminate. Qed.
Lemma lmi_costs b : on_costs (lmi_program b).
Proof. intros [|[|]] co Hc; try discriminate. injection Hc as <-. cbn. repeat constructor. Qed.
Lemma lmi_conic b : conic_only (lmi_program b).
Proof. split; [intros [|[|]] co Hc; try discriminate; injection Hc as <-; right; right; cbn; eauto|]. intros dv [<-|[]]. auto. Qed.
Lemma lmi_factorable b : factorable (lmi_program b).
Proof.
  right. split; [|split; [|split]].
  - intros [|[|]] c Q y Hc; try discriminate. injection Hc as <-. discriminate.
  - intros [|[|]] c A rhs Hc; try discriminate. injection Hc as <-. discriminate.
  - intros dv [<-|[]]. auto.
  - intros z _ _ H _ [|v] Hv; [|cbn in Hv; lia].
    specialize (H 0%nat _ 2%nat 2%nat lmi_A lmi_c 1%nat 0%nat 1%nat eq_refl eq_refl ltac:(lia) ltac:(lia) ltac:(lia)). unfold total, component in H. cbn in H. lra.
Qed.

Lemma lmi_initialized b N : Initialize (clear (lmi_program b)) true N = Ok (lmi_ready b N).
Proof. unfold lmi_ready. destruct (Initialize (clear (lmi_program b)) true N) eqn:E; auto; vm_compute in E; discriminate. Qed.

Section Lmi.
  Variable nf : environment.
  Variable b : R.
  Variable N : nat.
  Notation p := (lmi_ready b N).
  Notation B := (conex (Refine 0) nf).

  Lemma lmi_fields : p_eqs p = p_eqs (lmi_program b) /\ p_cliques p = [[0%nat]] /\ p_duals p = [[]] /\ p_constraints p = [0%nat] /\
    p_cost p = p_cost (lmi_program b) /\ p_quadratic p = false /\ SizeOfKKTSystem p = 1%nat.
  Proof.
    destruct (Initialize_fields _ _ _ _ (lmi_initialized b N)) as (F1 & F2 & F3 & F4 & F5 & F6 & F7 & F8 & F9).
    rewrite F1, F2, F4, F5, F6, F7. unfold SizeOfKKTSystem. rewrite F6, F8. repeat split; reflexivity.
  Qed.
  Lemma lmi_stats : p_stats p = Some (mkStats N None).
  Proof. destruct (Initialize_fields _ _ _ _ (lmi_initialized b N)) as (_ & _ & _ & _ & _ & _ & _ & _ & F9). rewrite orb_true_r in F9. apply F9. Qed.
  Lemma lmi_ok : ready p.
  Proof.
    apply (initialized_ready (lmi_program b) (line_config 0 0 (Z.of_nat N) 0) N); [apply lmi_well|left; right; auto|]. apply lmi_initialized.
  Qed.

  Definition lmi_state : list cstate := [SHerm (mkHermWs 2 2 (Some JordanModel.Identity) None false)].
  Lemma lmi_shaped st : ct_cons st = lmi_state -> shaped shape_ok p st.
  Proof.
    intros Hst. destruct lmi_fields as (F1 & _). split; [rewrite Hst, F1; reflexivity|]. rewrite F1.
    intros [|[|]] co s Hc Hs; try discriminate. injection Hc as <-. rewrite Hst in Hs. injection Hs as <-.
    cbn [shape_ok ct_data hw_h hw_n hw_W]. split; [auto|]. split; [auto|]. split; [eauto|]. exact (HermLinks.identity_inside 1 2 false ltac:(lia)).
  Qed.
  Lemma lmi_consistent_ready : consistent p.
  Proof. unfold consistent. rewrite (proj1 lmi_fields). apply lmi_consistent. Qed.

  (** The system at the identity. *)
  Lemma lmi_system st : ct_cons st = lmi_state ->
    exists st0 st1, con_assemble p st = Ok st0 /\ con_factor 0 p st0 = Ok (st1, true) /\
      ct_cons st1 = lmi_state /\ ct_sys st1 = mkRhs [0] [0] (/ 5) (/ 50) /\
      forall st2 r, ct_fact st2 = ct_fact st1 -> con_solve 0 p st2 [r] = Ok [r / 2].
  Proof.
    intros Hst. destruct lmi_fields as (F1 & F2 & F3 & F4 & F5 & F6 & F7). pose proof lmi_ok as R.
    pose proof (lmi_shaped st Hst) as G. pose proof lmi_consistent_ready as HC.
    assert (rectangular p) as HT by (unfold rectangular; rewrite F1; apply lmi_rectangular).
    assert (factorable p) as HF.
    { pose proof (lmi_factorable b) as HF. unfold factorable, definite, convex in *. rewrite F1, F2, F3, F7. exact HF. }
    destruct (assemble_total p R HC st G) as (st0 & E0 & _). destruct (factor_ok (Refine 0) p R ltac:(intros; discriminate) st st0 G E0) as (st1 & ok & E1 & Hok & Hs).
    specialize (Hok HT (or_introl HF)). subst ok. specialize (Hs eq_refl).
    destruct (assembled p st st0 R E0) as (q & Q1 & Q2 & Q3 & Q4 & Q5 & Q6 & Q7 & Q8 & Q9).
    destruct (solved_system (Refine 0) p st st0 q st1 R E0 Q1 Q9 E1) as (E & S1 & S2 & _ & _ & S4 & _).
    destruct (con_factor_core _ _ _ _ _ E1) as [K1 K2].
    assert (exists sc, q = [(SHerm (mkHermWs 2 2 (Some JordanModel.Identity) None false), sc)] /\ sc_rhs sc = mkRhs [0] [0] (/ 5) (/ 50) /\ LinearModel.sc_G sc 0%nat 0%nat = 2) as (sc & Eq & ER & HG).
    { destruct Q1 as [L Q1]. rewrite F1 in L, Q1. destruct q as [|[s' sc] [|]]; try discriminate L.
      destruct (Q1 0%nat _ eq_refl) as (s & Hs' & E2). rewrite Hst in Hs'. injection Hs' as <-.
      unfold con_schur in E2. change (ct_vars _) with 1%nat in E2. cbn [ct_data] in E2.
      apply bind_ok in E2 as (o & Eo & E2). injection E2 as <- <-. eexists. split; [reflexivity|].
      destruct (HermLinks.herm_block 1 2 lmi_A lmi_c _ 1 o ltac:(lia) Eo (HermLinks.identity_inside 1 2 false ltac:(lia))) as (W & EW & _ & L1 & L2 & BG & _ & BA & BQ & Bw & Bc).
      injection EW as <-. change (2 ^ 1)%nat with 2%nat in *. set (sc := schur_of _ _) in *. clearbody sc. change (2 ^ 1)%nat with 2%nat in *.
      pose proof (HyperFacts.laws_cd 1) as LW.
      assert (forall X Y : JordanModel.hyper, JordanProofs.minner 2 2 (JordanSteps.cl 1 2 X) (Spec_Hyper.mmul 2 (JordanSteps.cl 1 2 JordanModel.Identity) (Spec_Hyper.mmul 2 (JordanSteps.cl 1 2 Y) (JordanSteps.cl 1 2 JordanModel.Identity))) = herm_inner 2 2 X Y) as HM.
      { intros X Y. rewrite JordanSteps.cl_identity. rewrite (HyperFacts.one_r _ _ LW), (HyperFacts.one_l _ _ LW) by apply JordanSteps.cl_clipped.
        rewrite HermLinks.inner_trace. symmetry. exact (JordanSteps.cl_inner 1 2 X Y). }
      assert (forall X : JordanModel.hyper, JordanProofs.minner 2 2 (JordanSteps.cl 1 2 X) (JordanSteps.cl 1 2 JordanModel.Identity) = herm_inner 2 2 X JordanModel.Identity) as HN.
      { intros X. rewrite HermLinks.inner_trace. symmetry. exact (JordanSteps.cl_inner 1 2 X JordanModel.Identity). }
      rewrite HM in Bc. rewrite HN in Bw. specialize (BA 0%nat ltac:(lia)). specialize (BQ 0%nat ltac:(lia)). specialize (BG 0%nat 0%nat ltac:(lia)).
      rewrite HM in BQ, BG. rewrite HN in BA. unfold herm_inner, total, HermLinks.mat_of, component, JordanModel.Identity in BA, BQ, BG, Bw, Bc. cbn in BA, BQ, BG, Bw, Bc.
      split; [|lra].
      destruct (sc_rhs sc) as [AW AQc wc cQc]. cbn [r_AW r_AQc r_wc r_cQc] in *.
      destruct AW as [|a [|]], AQc as [|a' [|]]; try discriminate. cbn [nth] in BA, BQ.
      f_equal; [f_equal; lra|f_equal; lra|lra|lra]. }
    exists st0, st1. split; auto. split; auto. split; [rewrite K1, Q2, Eq; reflexivity|].
    assert (ct_sys st0 = mkRhs [0] [0] (/ 5) (/ 50)) as ES.
    { rewrite F1, Eq, ?F2, ?F7 in *. destruct (ct_sys st0) as [AW AQc wc cQc]. cbn [r_AW r_AQc r_wc r_cQc] in *.
      destruct AW as [|a [|]], AQc as [|a' [|]]; try discriminate. specialize (Q5 0%nat). specialize (Q6 0%nat). cbn in Q5, Q6, Q7, Q8. rewrite ER in Q5, Q6, Q7, Q8. cbn in Q5, Q6, Q7, Q8.
      f_equal; [f_equal; lra|f_equal; lra|lra|lra]. }
    split; [congruence|].
    intros st2 r Hf. destruct (Hs st2 [r] Hf) as (y & Ey & Hy); [rewrite F7; auto|]. rewrite Ey. f_equal. rewrite F7 in Hy.
    destruct y as [|y [|]]; try discriminate. destruct (S4 st2 [r] [y] Hf Ey) as (_ & _ & S). specialize (S (or_introl eq_refl) 0%nat). rewrite F7 in S.
    specialize (S ltac:(lia)). rewrite S2 in S by (intros dv; rewrite F3; intros [<-|[]]; auto).
    unfold matrix_of in S. rewrite F2, Eq in S. unfold row_times, sum_of_blocks, scattered, total, msum in S. cbn in S. rewrite HG in S.
    f_equal. lra.
  Qed.

  (** The product of the scaling with the negative slack at the first step. *)
  Definition lmi_WS (y : R) : JordanModel.hyper := JordanModel.Multiply 2 2 JordanModel.Identity (HermLinks.herm_neg 2 lmi_A lmi_c 10 [y]).
  Lemma lmi_WS_entries y t r c : (t < 2)%nat -> (r < 2)%nat -> (c < 2)%nat ->
    lmi_WS y t r c = if (t =? 0)%nat then (if (r =? c)%nat then -1 else 0) else if (r <? c)%nat then y else if (c <? r)%nat then - y else 0.
  Proof.
    intros Ht Hr Hc. unfold lmi_WS, JordanModel.Multiply, JordanModel.multiply_step, JordanModel.rprod. cbn [for_up seq fold_left rsum].
    rewrite !HermLinks.herm_neg_entry. unfold total, component, JordanModel.Identity, JordanModel.Zero. destruct t as [|[|t]]; [| |lia]; destruct r as [|[|r]]; try lia; destruct c as [|[|c]]; try lia; cbn; lra.
  Qed.
  Definition lmi_tame (y : R) : Prop := forall draws,
    match env_estimate nf draws 2 2 (lmi_WS y) JordanModel.Identity with Some (lo, hi) => LanczosModel.norm_from 1 lo hi <= 1 | None => True end.

  Lemma lmi_prepare st o y : ct_cons st = lmi_state -> op_affine o = false -> op_c_weight o = 10 -> op_e_weight o = 1 -> lmi_tame y ->
    exists st' ni q, PrepareStep B p st o [y] = Ok (st', (ni, q)) /\ -1 <= ni <= 1 /\ shaped shape_ok p st' /\ shaped primed p st'.
  Proof.
    intros Hst Ho Hw He Hy. destruct lmi_fields as (F1 & F2 & F3 & F4 & F5 & F6 & F7).
    destruct (prepare_total (Refine 0) nf p lmi_ok lmi_consistent_ready st o [y] (lmi_shaped st Hst) Ho ltac:(rewrite F7; reflexivity)) as (st' & [ni q] & E & G & P).
    exists st', ni, q. split; auto. split; auto.
    unfold PrepareStep, NumberOfConstraints in E. rewrite F1, F2 in E. change (length (p_eqs (lmi_program b))) with 1%nat in E. cbn [seq foldM] in E.
    cbn [at_ nth_error bind Vars mapM idx bk_prepare conex] in E. unfold con_prepare, get_con in E. rewrite F1, Hst in E. cbn [nth_error lmi_state] in E.
    change (nth_error (p_eqs (lmi_program b)) 0) with (Some (mkCont (CHerm 2 2 lmi_A lmi_c) 1)) in E. cbn [bind ct_data] in E.
    apply bind_ok in E as ([st1 [n1 q1]] & E & E'). apply bind_ok in E as ([st2 [n2 q2]] & E & E''). injection E' as <- <- <-. injection E'' as <- <- <-.
    apply bind_ok in E as ([co s0] & E1 & E). injection E1 as <- <-. cbn [ct_data] in E. apply bind_ok in E as (o1 & E1 & E).
    destruct (HermLinks.herm_prepared 2 2 lmi_A lmi_c _ [y] o1 (herm_options o) E1 (HermLinks.identity_inside 1 2 false ltac:(lia)) Ho) as (w' & x & q' & Ep & _ & EWS & EW & _).
    rewrite Ep in E. apply HermLinks.herm_ready_ok in E1 as (k & W & _ & _ & EI & _ & _ & _ & _ & _ & _ & ->). injection EI as <-.
    cbn [herm_of JordanModel.h_W] in EWS, EW. cbn [herm_options JordanModel.so_c_weight] in EWS. rewrite Hw in EWS. rewrite EWS, EW in E. injection E as <- <- <-.
    specialize (Hy (ct_draws st)). unfold lmi_WS in Hy. rewrite He.
    destruct (env_estimate _ _ _ _ _ _) as [[lo hi]|].
    - pose proof (norm_from_nonneg 1 lo hi). destruct (Rltb_spec (-1) (LanczosModel.norm_from 1 lo hi)); lra.
    - destruct (Rltb_spec (-1) (-1)); lra.
  Qed.

  Variable dual final : Z.
  Notation c := (line_config dual final (Z.of_nat N) 1).
  Hypothesis Hfinal : (0 <= final < Z.of_nat N)%Z.
  Hypothesis Hb : lmi_tame (5 * b).

  (** The first iteration ends the loop. *)
  Lemma lmi_first s st0 : l_num s = mkNum st0 (line_area N None) -> ct_cons st0 = lmi_state -> l_ism s = 0 -> l_max s = 10 ->
    l_kkt_error s = XFin 0 -> l_log s = [] -> l_centering_steps s = 0%Z ->
    exists s' e, iteration B p c N 0 [b] (Rank B p) 0 s = Ok (VBreak s' false) /\ l_log s' = [e] /\ en_dinf e <= 1 /\ en_ism e = 10 /\
      l_y s' = Some [5 * b] /\ l_ism s' = 10 /\ nm_area (l_num s') = line_area N (Some 10).
  Proof.
    intros Hn Hst Hi Hm Hk Hl Hcs. destruct lmi_fields as (F1 & F2 & F3 & F4 & F5 & F6 & F7). pose proof lmi_ok as RD.
    destruct (line_cells N None ltac:(lia)) as (C1 & C2 & _).
    unfold iteration. change (bk_state B) with cst in *. rewrite Hn, Hi, Hm, Hk, Hcs. cbn [line_config initialization_mode kkt_error_tolerance max_iterations final_centering_steps enable_rescaling Z.eqb].
    destruct (Rleb_spec 10 0); [lra|]. cbn [xgt]. destruct (Rltb_spec 10000000000 0); [lra|].
    replace (Z.of_nat N - final <=? Z.of_nat 0)%Z with false by (symmetry; apply Z.leb_gt; lia). cbn [orb andb Nat.eqb nm_bk nm_area Nat.ltb Nat.leb negb].
    destruct (lmi_system st0 Hst) as (sta & stb & Ea & Eb & Hb1 & S1 & HS).
    change (bk_assemble B) with con_assemble. rewrite Ea. cbn [bind]. change (bk_factor B) with (con_factor (Refine 0)). rewrite Eb. cbn [bind negb].
    rewrite (cell_total _ _ _ C1), (cell_total _ _ _ C2). cbn [bind].
    pose proof (lmi_shaped stb Hb1) as G. pose proof lmi_consistent_ready as HC.
    assert (listed p) as HL by (unfold listed; rewrite F1, F4; apply (lmi_listed b)).
    destruct (update_mu_total (Refine 0) nf p RD HC c stb [b] 1 1 (Rank B p) 0 G) as (u & Eu & Hu).
    { intros st2 r Hf Hr. rewrite F7 in *. destruct r as [|r [|]]; try discriminate. eexists. split; [apply HS; auto|auto]. }
    { rewrite F7. auto. } { rewrite S1, F7. auto. } { rewrite S1, F7. auto. }
    rewrite Eu. cbn [bind].
    destruct u as [[st2 ism]|].
    2:{ exfalso. apply (update_mu_demand B p c stb [b] 1 1 (Rank B p) 0); [lra| |exact Eu]. unfold quadratic_precondition. rewrite F6. reflexivity. }
    pose proof (update_mu_core _ _ _ _ _ _ _ _ _ _ _ _ Eu) as [W1 W2 W3 W4].
    assert (ct_cons st2 = lmi_state) as Hst2.
    { unfold weights in W1. rewrite Hb1 in W1. cbn in W1. destruct (ct_cons st2) as [|x [|]]; try discriminate. cbn in W1.
      destruct x as [[[W|] t1 t2]| | |[m0 [W|] d0]|w|]; try discriminate. cbn in W1. injection W1 as ->. reflexivity. }
    unfold finish_iteration. rewrite line_floor. cbn [bind]. cbn [line_config initialization_mode Z.eqb]. rewrite line_limits.
    rewrite (cell_total _ _ _ C1), (cell_total _ _ _ C2). cbn [bind]. change (bk_sys B st2) with (ct_sys st2). rewrite W4, S1.
    cbn [r_AW r_AQc r_wc r_cQc vscale map vplus vminus zip_ bind]. change (bk_solve B) with (con_solve (Refine 0)). rewrite (HS st2 _ W3). cbn [bind].
    match goal with |- context [PrepareStep B p st2 ?o [?y]] => set (yy := y) in *; assert (yy = 5 * b) as Hyy;
      [|destruct (lmi_prepare st2 o yy Hst2 eq_refl) as (st3 & ni & q & E3 & Hni & G3 & P3); [cbn; lra|reflexivity|rewrite Hyy; exact Hb|]] end.
    { unfold yy. field. }
    change (bk_state B) with cst in *. rewrite E3. cbn [bind]. rewrite andb_false_r. cbn [andb].
    match goal with |- context [TakeStep B p st3 ?o] => destruct (take_total (Refine 0) nf p HC HL st3 o G3 P3 eq_refl) as (st4 & E4 & _) end.
    change (bk_state B) with cst in *. rewrite E4. cbn [bind].
    replace (length (line_area N None) <=? 0)%nat with false.
    2:{ symmetry. apply Nat.leb_gt. unfold line_area. rewrite !upd_length, repeat_length. lia. }
    destruct (Rleb_spec 10 10); [|lra]. cbn [orb andb final_centering_tolerance line_config].
    assert (Rabs ni <= 1) as Hna by (apply Rabs_le; lra). destruct (Rleb_spec (Rabs ni) 1); [|lra].
    eexists _, _. split; [reflexivity|]. cbn [l_log]. rewrite Hl. split; [reflexivity|]. cbn. rewrite Hyy. repeat (split; [lra|]). split; [reflexivity|]. split; [reflexivity|]. match goal with |- upd (upd ?l _ _) _ _ = _ => destruct l; reflexivity end.
  Qed.
End Lmi.

(** The whole solve: it ends after one iteration with a point that the bound on the
    direction certifies. *)
Lemma lmi_handed nf b n final limit : (0 < final < limit)%Z -> lmi_tame nf (5 * b) ->
  exists r y e, handed_back nf (lmi_program b) n (line_config 0 final limit 1) r y e /\ y = [b / 2] /\ en_dinf e <= 1 /\ en_ism e = 10 /\ st_solved (p_status (rt_prog _ r)) = true.
Proof.
  intros Hf Hb. set (c := line_config 0 final limit 1).
  destruct (cold_handed nf (lmi_program b) n c) as (r & y & e & H & Hy);
    auto using lmi_starts, lmi_well, lmi_consistent, lmi_listed, lmi_rectangular, lmi_factorable; try reflexivity.
  { cbn. lia. } { cbn. lra. } { cbn. lra. } { left. cbn. lia. } { discriminate. }
  exists r, y, e. split; auto.
  set (N := Z.to_nat limit). assert (limit = Z.of_nat N) as EN by (unfold N; lia).
  destruct (hb_entry _ _ _ _ _ _ _ H) as (t & Et). pose proof (hb_solve _ _ _ _ _ _ _ H) as E.
  change (ConexSolve nf (lmi_program b) n c) with (Solve (conex 0 nf) (lmi_program b) n c) in E.
  change (conex (mode_of nf c) nf) with (conex 0 nf) in *.
  set (B := conex 0 nf) in *. set (p2 := lmi_ready b N).
  destruct (lmi_fields b N) as (F1 & F2 & F3 & F4 & F5 & F6 & F7).
  assert (cost_vector p2 = [b]) as EC.
  { unfold cost_vector. fold p2 in F5, F7. rewrite F5, F7. cbn. repeat f_equal. lra. }
  set (s0 := start B (clear (lmi_program b)) p2 n c (mkStats N None)).
  destruct (lmi_first nf b N 0 final ltac:(lia) Hb s0 (SetIdentity B p2 (con_initialize p2 (nm_bk n)))) as (s' & e' & E1 & E2 & E3 & E4 & E5 & E6 & E7); try reflexivity.
  { unfold s0, start, Initialize_numeric. cbn [c line_config initialization_mode Z.eqb max_iterations]. rewrite orb_true_r. fold N.
    cbn [l_num]. unfold line_area. f_equal. destruct N; [lia|]. reflexivity. }
  change (bk_state (conex 0 nf)) with cst in *. rewrite <- EN in E1. fold c p2 B in E1.
  assert (loop B p2 c N 0 [b] (Rank B p2) N 0 s0 = Ok (VBreak s' false)) as EL.
  { destruct N as [|N'] eqn:EN'; [lia|]. cbn [loop]. rewrite E1. reflexivity. }
  rewrite (Solve_by_loop B _ n c p2 (mkStats N None) (VBreak s' false)) in E;
    [|reflexivity|cbn; lia|apply lmi_initialized|apply lmi_stats|cbn [ss_max_iter]; rewrite EC; exact EL].
  apply bind_ok in E as (r' & Er & E). injection E as ->. pose proof Er as Er'. apply finish_spec in Er as (k & Hk & Hstat & Hlog & _).
  change (bk_state B) with cst in *. rewrite Et in Hlog. pose proof (eq_trans Hlog E2) as HH. injection HH as -> _.
  cbv zeta in Hstat. change (bk_state B) with cst in *. rewrite E6 in Hstat.
  assert (mu_exceeds 10 (infeasibility_threshold c) = false) as Hmu by (cbn; apply mu_exceeds_spec; lra).
  rewrite Hmu in Hstat. split; [|split; [exact E3|split; [exact E4|]]].
  - pose proof (hb_y _ _ _ _ _ _ _ H) as Hy'. change (bk_state B) with cst in *. unfold finish in Er'. change (bk_state B) with cst in *. rewrite Hk, E6, E5, E7, Hmu in Er'.
    cbn [c line_config prepare_dual_variables Z.eqb negb bind ss_max_iter] in Er'. destruct (line_cells N (Some 10) ltac:(lia)) as (_ & C2 & _). rewrite (cell_total _ _ _ C2) in Er'. cbn [bind] in Er'.
    injection Er' as <-. cbn [rt_y] in Hy'. injection Hy' as <-. change (p_cost p2) with [- b] in *. cbn. f_equal. field.
  - rewrite Hstat. reflexivity.
Qed.
