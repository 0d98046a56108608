(** The Newton equation of an iteration, constraint by constraint. *)
From Coq Require Import List Arith ZArith Reals Bool Lia Lra.
From Verif Require Import Base BaseFacts LayoutModel SupernodeModel TriWorkspaceModel AssemblerModel DenseModel BlockModel KktModel
  ProgramModel ApiModel DivergenceModel SolveModel LinearModel ConcreteBackend Spec_Linear Spec_Assembly RhsProofs Spec_Program Spec_Solve Spec_Conex
  SolveProofs SolveFacts SolveStats SolveLast Prop_Solve ConexFacts ConexStep ConexKkt ConexBlocks.
From Verif Require Import SocLinks.
From Verif Require Spec_Soc Spec_SocSteps SocAlgebra SocProofs SocNewton HermBound HermLinks.
Import ListNotations.
Open Scope R_scope.

(** ** Frames *)

Lemma search_loop_core iters nf p params y0 y1 es : forall st lo up st' r,
  search_loop (conex iters nf) p st params y0 y1 es lo up = Ok (st', r) -> same_core st st'.
Proof.
  induction es as [|i t IH]; intros st lo up st' r E; cbn in E.
  - injection E as <- _. apply same_core_refl.
  - apply bind_ok in E as (cl & _ & E). apply bind_ok in E as (z1 & _ & E). apply bind_ok in E as (z2 & _ & E).
    apply bind_ok in E as ([s1 r1] & E1 & E). apply con_search_core in E1.
    destruct r1 as [[l u]|]; [eapply same_core_trans; [exact E1|eapply IH; eauto]|]. injection E as <- _. auto.
Qed.

Lemma spectrum_core iters nf p st y w st' s : GetWeightedSlackEigenvalues (conex iters nf) p st y w = Ok (st', s) -> same_core st st'.
Proof.
  intros E. unfold GetWeightedSlackEigenvalues in E.
  apply (foldM_preserves _ (fun acc : cst * spectrum => same_core st (fst acc))) in E; [exact E|apply same_core_refl|].
  intros i [s1 q] [s' r'] _ Ha Ea. apply bind_ok in Ea as (cl & _ & Ea). apply bind_ok in Ea as (z & _ & Ea).
  apply bind_ok in Ea as ([s2 [[[l1 l2] f] t]] & E1 & Ea). injection Ea as <- _. cbn in *.
  eapply same_core_trans; [exact Ha|]. eapply con_spectrum_core; eauto.
Qed.

Lemma update_mu_core iters nf p c st b bs cs k ism st' ism' :
  update_mu (conex iters nf) p c st b bs cs k ism = Ok (Some (st', ism')) -> same_core st st'.
Proof.
  intros E. unfold update_mu in E. apply bind_ok in E as ([s1 t1] & E1 & E).
  assert (same_core st s1) as H1.
  { destruct (negb (enable_line_search c =? 0)%Z).
    - apply bind_ok in E1 as ([s2 t] & E2 & E1). injection E1 as <- _. unfold ComputeMuFromLineSearch in E2.
      apply bind_ok in E2 as (y0 & _ & E2). apply bind_ok in E2 as (r0 & _ & E2). apply bind_ok in E2 as (r1 & _ & E2).
      apply bind_ok in E2 as (y1 & _ & E2). apply bind_ok in E2 as ([s3 r] & E3 & E2).
      apply search_loop_core in E3. destruct r as [[? ?]|]; injection E2 as <- _; auto.
    - injection E1 as <- _. apply same_core_refl. }
  destruct (Rltb t1 0).
  - destruct (p_quadratic p); [discriminate|]. apply bind_ok in E as ([s2 t2] & E2 & E). injection E as <- _.
    unfold ComputeMuFromDivergence in E2. apply bind_ok in E2 as (r0 & _ & E2). apply bind_ok in E2 as (y & _ & E2).
    apply bind_ok in E2 as ([s3 q] & E3 & E2). injection E2 as <- _.
    eapply same_core_trans; [exact H1|]. eapply spectrum_core; eauto.
  - injection E as <- _. auto.
Qed.

(** ** One iteration *)

(** The facts about iteration [k]: [q] the blocks, [W] and [D] the weights and
    directions by constraint, [y] the solution of the system, [E] the
    perturbation of the factorization. *)
Record newton (iters : solver_mode) (p : program) (st : cst) (b : list R) (ism bs cs : R) (q : list (cstate * schur)) (E : nat -> R)
  (y : list R) (st2 st3 : cst) (norm nsq : R) (D : list (list R)) : Prop := {
  nw_blocks : blocks_of p st q;
  nw_ism : 0 < ism; nw_bs : 0 < bs; nw_cs : 0 < cs;
  nw_interior : interior st2;
  nw_weights : forall i co s s2, nth_error (p_eqs p) i = Some co -> nth_error (ct_cons st) i = Some s ->
     nth_error (ct_cons st2) i = Some s2 -> weight_of s2 = weight_of s;
  nw_y : length y = SizeOfKKTSystem p;
  nw_b : length b = SizeOfKKTSystem p;
  nw_E : forall u, Rabs (E u) <= 2 / 1000000000;
  nw_plain : no_multipliers p -> forall u, E u = 0;
  nw_pivots : pivots_large p (ct_fact st3) -> forall u, E u = 0;
  nw_qr : forall f, iters = Qr f -> forall u, E u = 0;
  nw_AQc : length (r_AQc (ct_sys st2)) = SizeOfKKTSystem p /\
    (forall v, nth v (r_AQc (ct_sys st2)) 0 = total (fun i => placed (nth i (p_cliques p) [])
       (fun a => nth a (r_AQc (sc_rhs (snd (nth i q qdef)))) 0) v) (seq 0 (length (p_eqs p))));
  nw_AW : forall v, nth v (r_AW (ct_sys st2)) 0 = total (fun i => placed (nth i (p_cliques p) [])
       (fun a => nth a (r_AW (sc_rhs (snd (nth i q qdef)))) 0) v) (seq 0 (length (p_eqs p)));
  nw_wc : r_wc (ct_sys st2) = total (fun i => r_wc (sc_rhs (snd (nth i q qdef)))) (seq 0 (length (p_eqs p)));
  nw_cQc : r_cQc (ct_sys st2) = total (fun i => r_cQc (sc_rhs (snd (nth i q qdef)))) (seq 0 (length (p_eqs p)));
  nw_system : (iters = 0%nat \/ (forall u, E u = 0)) -> forall u, (u < SizeOfKKTSystem p)%nat ->
    row_times (SizeOfKKTSystem p) (matrix_of p q) (fun i => nth i y 0) u + E u * nth u y 0 =
    ism * (bs * nth u b 0 + cs * nth u (r_AQc (ct_sys st2)) 0) - 2 * nth u (r_AW (ct_sys st2)) 0;
  nw_len : length D = length (p_eqs p);
  nw_nsq : nsq = total (fun i => dsq (nth_error (p_eqs p) i) (nth i D [])) (seq 0 (length (p_eqs p)));
  nw_norm : -1 <= norm;
  nw_core : same_solver st2 st3;
  nw_step : forall i, (i < length (p_eqs p))%nat -> con_step p st2 st3 (mkStep false ism (ism * cs) 1 0) y norm i (nth i D []);
  nw_factor : exists st0 st1, con_assemble p st = Ok st0 /\ con_factor iters p st0 = Ok (st1, true) /\ ct_fact st3 = ct_fact st1
}.

Lemma completed_newton iters nf p c M b rankK k (s0 s1 : lstate cst) e : ready p -> interior (nm_bk (l_num s0)) -> positive_area (area (conex iters nf) s0) ->
  completed (conex iters nf) p c M b rankK k s0 s1 e ->
  exists st0 a0 ismax st2 bs cs y st3 norm nsq D q E,
    newton iters p (nm_bk (l_num s0)) b (en_ism e) bs cs q E y st2 st3 norm nsq D /\
    rescaled c M b k (r_AQc (ct_sys st0)) (nm_area (l_num s0)) (l_max s0) a0 ismax /\
    get_cell a0 (b_cell M) = Ok bs /\ get_cell a0 (c_cell M) = Ok cs /\
    nm_area (l_num s1) = upd a0 k (Some (en_ism e)) /\ (k < length a0)%nat /\
    l_num_iter s1 = Some (S k) /\ l_y s1 = Some y /\ l_ism s1 = en_ism e /\ en_dinf e = Rabs norm /\ en_i e = k /\
    l_by s1 = vdot b y / (en_ism e * cs) /\
    l_cx s1 = (2 * r_wc (ct_sys st2) + vdot (r_AQc (ct_sys st2)) y - en_ism e * r_cQc (ct_sys st2) * cs) / (en_ism e * bs) /\
    (exists (abort : bool) (step : R), (if abort then Ok (SetIdentity (conex iters nf) p st3)
       else TakeStep (conex iters nf) p st3 (mkStep false (en_ism e) (en_ism e * cs) 1 step)) = Ok (nm_bk (l_num s1))) /\
    estimated nf 1 p st3 norm /\
    (p_quadratic p = false -> l_kkt_error s1 =
       let x := 1 / en_ism e * (1 / en_ism e) * (INR rankK - sqrt (Rabs nsq) * sqrt (Rabs nsq)) / (bs * cs) in
       quotient (Rabs (l_cx s1 - l_by s1 - x)) x).
Proof.
  intros R HI HA H.
  inversion H as [st0 a0 ismax st1 st2 ism0 ini stps mn bs cs r1 r2 y st3 nn nsq st4
        Ea Er Ef Eb Ec Eu El ism sys E1 E2 Ey Ep ab Et Hl by_ cx sx kkt e0]; subst s1 e; clear H.
  cbn [e0 en_ism en_dinf en_i l_num nm_bk nm_area l_num_iter l_y l_ism l_by l_cx l_kkt_error] in *.
  cbn [conex bk_assemble bk_factor bk_sys bk_solve bk_state] in Ea, Ef, Ey.
  assert (0 < ism) as Hism.
  { pose proof (lower_limit_pos c mn El). pose proof (ApplyLimits_ge ism0 mn ismax). unfold ism. lra. }
  assert (positive_area a0) as HA0 by exact (rescaled_positive _ _ _ _ _ _ _ _ _ HA Er).
  assert (0 < cs) as Hcs by (apply get_cell_ok in Ec; eapply HA0; eauto).
  assert (0 < bs) as Hbs by (apply get_cell_ok in Eb; eapply HA0; eauto).
  assert (same_core st1 st2) as HC.
  { destruct Eu as [[Eu _]|(-> & _)]; [|apply same_core_refl]. eapply update_mu_core; eauto. }
  assert (interior st2) as HI2.
  { pose proof (interior_keeps iters nf p) as K.
    assert (interior st1) as HI1 by exact (k_factor _ _ _ K st0 st1 true (k_assemble _ _ _ K _ _ HI Ea) Ef).
    eapply interior_core; eauto. }
  destruct (assembled p _ st0 R Ea) as (q & Q1 & Q2 & Q3 & Q4 & Q5 & Q6 & Q7 & Q8 & Q9).
  destruct (solved_system iters p _ st0 q st1 R Ea Q1 Q9 Ef) as (E & S1 & S2 & S3 & SQ & S4 & _).
  destruct (con_factor_core _ _ _ _ _ Ef) as [F1 F2].
  pose proof (sm_sys _ _ HC) as HS. rewrite F2 in HS.
  destruct (S4 st2 r2 y (sm_fact _ _ HC) Ey) as (Y1 & Y2 & Y3).
  pose proof (prepare_each iters nf p st2 (mkStep false ism (ism * cs) 1 (l_step s0)) y st3 nn nsq eq_refl HI2 Ep) as (D & D1 & D2 & D3 & D4 & D5).
  unfold sys in E1, E2. cbn [conex bk_sys] in E1, E2. apply zip_ok in E1 as (U1 & U2 & U3). apply zip_ok in E2 as (V1 & V2 & V3).
  rewrite !vscale_length in *.
  exists st0, a0, ismax, st2, bs, cs, y, st3, nn, nsq, D, q, E. split.
  - constructor; auto.
    + intros i co s s2 Hi Hs Hs2. pose proof (sm_weights _ _ HC) as HW. unfold weights in HW. rewrite F1, Q2 in HW.
      apply (f_equal (fun l => nth_error l i)) in HW. rewrite !nth_error_map, Hs2 in HW.
      destruct Q1 as [L1 L2]. destruct (L2 i co Hi) as (s' & Es & Ec'). rewrite Hs in Es. injection Es as <-.
      assert (i < length q)%nat as Hq by (rewrite L1; eapply nth_error_lt; eauto).
      rewrite (nth_error_nth' q qdef Hq) in HW. cbn in HW. injection HW as HW. rewrite HW.
      destruct (nth i q qdef) as [s' sc] eqn:Eq. cbn. apply con_schur_weight in Ec'. auto.
    + lia.
    + intros HP. apply S3. rewrite <- (sm_fact _ _ HC), <- (sv_fact _ _ D4). exact HP.
    + rewrite HS. auto.
    + rewrite HS. auto.
    + rewrite HS. auto.
    + rewrite HS. auto.
    + intros Hor u Hu. rewrite (Y3 Hor u Hu). rewrite V3 by lia. rewrite !vscale_nth. rewrite U3 by lia. rewrite !vscale_nth. ring.
    + exists st0, st1. split; [exact Ea|]. split; [exact Ef|]. rewrite (sv_fact _ _ D4). exact (sm_fact _ _ HC).
  - split; [exact Er|]. repeat (split; [first [exact Eb|exact Ec|reflexivity|exact Hl]|]).
    split.
    + exists ab, (step_size nn). exact Et.
    + split; [exact (prepare_estimated iters nf p st2 (mkStep false ism (ism * cs) 1 (l_step s0)) y st3 nn nsq eq_refl Ep)|].
      intros Hq. unfold kkt. rewrite Hq. reflexivity.
Qed.

(** ** The gradient equation *)

(** Dual variables of the rows of constraint [i], from the state [st] after
    preparing the step (a second-order cone then holds the square root of its
    scaling point). *)
Definition duals_of (st : cst) (D : list (list R)) (i : nat) : list R :=
  match nth_error (ct_cons st) i with
  | Some (SLinear w) => match lw_W w with Some W => map (fun p => fst p * (1 + snd p)) (combine W (nth i D [])) | None => [] end
  | Some (SSoc w) =>
      match sw_W w, sw_d w with
      | Some s, Some d => list_of (sw_n w) (Spec_Soc.jscale 2 (Spec_SocSteps.dual_point (Spec_Soc.euclid (sw_n w)) s d))
      | _, _ => []
      end
  | Some (SHerm w) =>
      match hw_W w, hw_WS w with
      | Some W, Some WS => HermBound.entries (hw_h w) (hw_n w) (HermLinks.herm_dual (hw_h w) (hw_n w) W WS)
      | _, _ => []
      end
  | _ => []
  end.

Lemma duals_of_nth st D i w W k : nth_error (ct_cons st) i = Some (SLinear w) -> lw_W w = Some W -> (k < length W)%nat ->
  length (nth i D []) = length W -> nth k (duals_of st D i) 0 = nth k W 0 * (1 + nth k (nth i D []) 0).
Proof.
  intros H1 H2 Hk HL. unfold duals_of. rewrite H1, H2.
  rewrite (nth_map_lt _ _ _ 0 (0, 0)) by (rewrite combine_length; lia). rewrite combine_nth by auto. reflexivity.
Qed.

(** Pairing with the dual variables of a second-order cone. *)
Lemma list_of_double n x a : total (fun k => nth k a 0 * nth k (list_of n (Spec_Soc.jscale 2 x)) 0) (seq 0 (n + 1)) =
  2 * Spec_Soc.inner (Spec_Soc.euclid n) (spin_of a) x.
Proof.
  rewrite inner_lists, <- total_scale. apply total_ext. intros k Hk. apply in_seq in Hk. rewrite !list_of_entry by lia.
  destruct k; cbn [entry_of fst snd Spec_Soc.jscale]; ring.
Qed.

Lemma soc_gradient n A c t y vars z w w' d q m G a : soc_stepped n A c t z w w' d -> Vars y vars = Ok z -> (a < m)%nat -> length vars = m ->
  (exists o, soc_ready n A c w m = Ok o /\ soc_schur o m = Ok q) -> (forall i j, sc_G q i j = G i j) ->
  exists s, sw_W w' = Some s /\ sw_d w' = Some d /\ sw_n w' = n /\
  total (fun k => nth k (nth a A []) 0 * nth k (list_of n (Spec_Soc.jscale 2 (Spec_SocSteps.dual_point (Spec_Soc.euclid n) s d))) 0) (seq 0 (n + 1)) =
  total (fun b => G (Nat.max a b) (Nat.min a b) * nth (nth b vars 0%nat) y 0) (seq 0 m)
  - t * nth a (r_AQc (sc_rhs q)) 0 + 2 * nth a (r_AW (sc_rhs q)) 0.
Proof.
  intros (W & s & H1 & H2 & H3 & H4 & H5 & H6 & H7 & Hd & Hw) HV Ha Hm (o & Ho & Hq) HG.
  destruct (soc_block _ _ _ _ _ _ _ Ho Hq) as (W' & B1 & B2 & B3 & B4 & B5 & B6 & B7 & B8 & B9 & B10 & B11 & _).
  rewrite H1 in B1. injection B1 as <-. exists s. rewrite Hw. cbn [sw_W sw_d sw_n]. do 3 (split; [auto|]).
  pose proof (SocAlgebra.euclid_form n) as F. pose proof (SocProofs.sqrt_root n _ F W s H6 H7) as HR.
  rewrite list_of_double. rewrite Hd. unfold soc_slack.
  pose proof (SocNewton.newton_row n _ F (length A) (soc_columns A) (spin_of c) t (fun j => nth j z 0) W s a HR) as E.
  change (spin_of (nth a A [])) with (soc_columns A a). rewrite E. rewrite B10, B11 by auto. rewrite !(SocProofs.quadrep_eq n _ _ _ F).
  rewrite rsum_total, B3. apply Vars_ok in HV as (V1 & V2).
  rewrite (total_ext _ (fun b => G (Nat.max a b) (Nat.min a b) * nth (nth b vars 0%nat) y 0)); [ring|].
  intros b Hb. apply in_seq in Hb. rewrite (proj2 (V2 b ltac:(lia))), <- HG, B7, (SocProofs.quadrep_eq n _ _ _ F). f_equal. f_equal.
  destruct (Nat.max_spec a b) as [[M ->]|[M ->]]; destruct (Nat.min_spec a b) as [[N ->]|[N ->]]; try lia; auto.
  rewrite <- (SocAlgebra.inner_qr_sym n _ F). apply (SocAlgebra.inner_sym n _ F).
Qed.

Lemma newton_gradient iters p st b ism bs cs q E y st2 st3 norm nsq D :
  ready p -> rectangular p -> sized_equalities p -> newton iters p st b ism bs cs q E y st2 st3 norm nsq D ->
  (iters = 0%nat \/ (forall u, E u = 0)) -> forall u, (u < SizeOfKKTSystem p)%nat ->
  gradient p (duals_of st3 D) y (ism * cs) u + E u * nth u y 0 = ism * bs * nth u b 0.
Proof.
  intros R HR HE N Hor u Hu. pose proof (nw_system _ _ _ _ _ _ _ _ _ _ _ _ _ _ _ N Hor u Hu) as HS.
  destruct N as [N1 N2 N3 N4 N5 N6 N7 N8 N9 N10 N11 _ (N12 & N13) N14 N15 N16 _ N17 N18 N19 N20 N21].
  unfold matrix_of in HS. rewrite row_times_blocks in HS by (intros c v; apply (ready_range p); auto).
  rewrite N13, N14 in HS. rewrite (wb_lengths _ (rd_built _ R)) in HS.
  assert (gradient p (duals_of st3 D) y (ism * cs) u =
    total (fun i => placed (nth i (p_cliques p) []) (fun a => total (fun b0 =>
       sc_G (snd (nth i q qdef)) (Nat.max a b0) (Nat.min a b0) * nth (nth b0 (nth i (p_cliques p) []) 0%nat) y 0)
         (seq 0 (length (nth i (p_cliques p) [])))) u) (seq 0 (length (p_eqs p)))
    - ism * cs * total (fun i => placed (nth i (p_cliques p) [])
       (fun a => nth a (r_AQc (sc_rhs (snd (nth i q qdef)))) 0) u) (seq 0 (length (p_eqs p)))
    + 2 * total (fun i => placed (nth i (p_cliques p) [])
       (fun a => nth a (r_AW (sc_rhs (snd (nth i q qdef)))) 0) u) (seq 0 (length (p_eqs p)))) as HG.
  2:{ rewrite HG. lra. }
  unfold gradient. rewrite <- !total_scale.
  unfold Rminus. rewrite <- (Rmult_1_l (total (fun i => ism * cs * _) _)).
  rewrite Ropp_mult_distr_l, <- total_scale, <- !total_plus. apply total_ext. intros i Hi. apply in_seq in Hi.
  rewrite <- !placed_scale, <- !placed_plus. apply placed_ext. intros a Ha.
  destruct N1 as [L1 L2]. destruct (nth_error (p_eqs p) i) as [co|] eqn:Eco; [|apply nth_error_None in Eco; lia].
  destruct (L2 i co Eco) as (s & Es & Ec). pose proof (wb_vars _ (rd_built _ R) i co Eco) as HV.
  destruct (nth i q qdef) as [s' sc] eqn:Eq. cbn [snd].
  unfold contribution. rewrite Eco. unfold con_schur in Ec.
  destruct (ct_data co) as [cols A c|n A c|h n As C| | |Q|A c] eqn:Ed; destruct s as [w|l| |w|w|]; try discriminate.
  - apply bind_ok in Ec as ([w' q'] & E1 & Ec). injection Ec as _ <-. pose proof (HR i co cols A c Eco Ed) as HCo.
    destruct (linear_schur_ok _ _ _ _ _ _ _ E1 HCo) as (W & S1 & S2 & S3 & S4 & S5 & S6 & S7 & S8 & _).
    rewrite (linear_block_times cols A W (nth i (p_cliques p) []) y (length (nth i (p_cliques p) [])) a (sc_G q')) by (auto; lia).
    rewrite S7, S8, <- !total_scale, <- !total_plus. apply total_ext. intros k Hk. apply in_seq in Hk.
    destruct (N21 i ltac:(lia)) as (c0 & s2 & s3 & cl & z & T1 & T2 & T3 & T4 & T5 & T6).
    rewrite Eco in T1. injection T1 as <-. rewrite Ed in T6. rewrite (nth_error_nth_eq _ _ _ [] T4).
    destruct s2 as [w2| | | | |]; try tauto. destruct s3 as [w3| | | | |]; try tauto.
    destruct T6 as (W2 & X1 & X2 & X3 & X4 & X5 & X6 & X7 & X8 & X9).
    pose proof (N6 i co _ _ Eco Es T2) as HW. cbn in HW. rewrite X1, S1 in HW. injection HW as ->.
    rewrite (duals_of_nth st3 D i w3 W k) by (auto; try lia; rewrite X5; lia).
    rewrite (X8 k ltac:(lia)). cbn [op_c_weight op_e_weight].
    rewrite (slack_row cols _ cl y z); auto.
    + ring.
    + unfold has_cols in HCo. rewrite Forall_forall in HCo. apply HCo. apply nth_In. lia.
  - apply bind_ok in Ec as (o & Eo & Ec). apply bind_ok in Ec as (q' & E1 & Ec). injection Ec as _ <-.
    destruct (N21 i ltac:(lia)) as (c0 & s2 & s3 & cl & z & T1 & T2 & T3 & T4 & T5 & T6).
    rewrite Eco in T1. injection T1 as <-. rewrite Ed in T6. rewrite (nth_error_nth_eq _ _ _ [] T4) in *.
    destruct s2 as [| | |w2| |]; try tauto. destruct s3 as [| | |w3| |]; try tauto. destruct T6 as (x & X1 & X2 & _).
    pose proof (N6 i co _ _ Eco Es T2) as HW. cbn in HW.
    assert (exists o2, soc_ready n A c w2 (ct_vars co) = Ok o2 /\ soc_schur o2 (ct_vars co) = Ok q') as Eo2.
    { destruct (soc_ready_ok _ _ _ _ _ _ Eo) as (W & G1 & G2 & G3 & G4 & ->). rewrite G1 in HW. destruct (sw_W w2) as [W2|] eqn:E2; [|discriminate].
      cbn in HW. injection HW as Hn ->. eexists. split; [apply (soc_ready_total n A c w2 _ W); auto; congruence|]. exact E1. }
    destruct (soc_gradient n A c (ism * cs) y cl z w2 w3 x q' (ct_vars co) (sc_G q') a X1 T5 ltac:(lia) ltac:(lia)) as (s & Y1 & Y2 & Y3 & Y4).
    { exact Eo2. }
    { auto. }
    unfold duals_of. rewrite T3, Y1, Y2, Y3, Y4, HV. cbn [op_c_weight]. ring.
  - apply bind_ok in Ec as (o & Eo & Ec). injection Ec as _ <-.
    destruct (N21 i ltac:(lia)) as (c0 & s2 & s3 & cl & z & T1 & T2 & T3 & T4 & T5 & T6).
    rewrite Eco in T1. injection T1 as <-. rewrite Ed in T6. rewrite (nth_error_nth_eq _ _ _ [] T4) in *.
    destruct s2 as [| | | |w2|]; try tauto. destruct s3 as [| | | |w3|]; try tauto. destruct T6 as (x & X1 & X2).
    pose proof (N6 i co _ _ Eco Es T2) as HW. cbn in HW. injection HW as ->. apply Vars_ok in T5 as (V1 & V2).
    destruct (HermLinks.herm_gradient h n As C (ism * cs) z (fun b0 => nth (nth b0 cl 0%nat) y 0) w w3 x (ct_vars co) o a X1) as (W & WS & Y1 & Y2 & Y3 & Y4 & Y5).
    { intros b0 Hb. apply V2. lia. }
    { lia. }
    { exact Eo. }
    { eapply interior_herm; eauto. }
    unfold duals_of. rewrite T3, Y1, Y2, Y3, Y4, Y5, HV. cbn [op_c_weight]. ring.
  - apply bind_ok in Ec as (q' & E1 & Ec). injection Ec as _ <-. destruct (quadratic_schur_ok _ _ _ E1) as (S1 & S2 & S3 & _).
    rewrite S2, S3. ring_simplify. apply total_ext. intros b0 _. rewrite S1. reflexivity.
  - apply bind_ok in Ec as (q' & E1 & Ec). injection Ec as _ <-. destruct (HE i co A c Eco Ed) as (H1 & H2 & H3).
    rewrite HV in E1. destruct (equality_schur_ok _ _ _ _ E1 H2) as (S1 & S2 & S3 & S4 & _). rewrite S3, S4.
    destruct (Nat.ltb_spec a (length (nth i (p_cliques p) []) - length A)) as [Hlt|Hge].
    + rewrite (equality_block_variable A (length (nth i (p_cliques p) [])) a (sc_G q')) by auto. ring.
    + assert (a = length (nth i (p_cliques p) []) - length A + (a - (length (nth i (p_cliques p) []) - length A)))%nat as Ea by lia.
      remember (a - (length (nth i (p_cliques p) []) - length A))%nat as j. rewrite Ea.
      rewrite (equality_block_multiplier A (length (nth i (p_cliques p) [])) j (sc_G q')) by (auto; lia). ring.
Qed.
