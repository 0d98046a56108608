(** A run of the solve loop on a problem with one variable and one second-order
    cone: maximise [b y] subject to [|(y, 1/20)| <= 1/10]. *)
From Coq Require Import List Arith ZArith Reals Bool Lia Lra.
From Verif Require Import Base BaseFacts LayoutModel SupernodeModel TriWorkspaceModel AssemblerModel DenseModel BlockModel KktModel RSum
  ProgramModel ApiModel DivergenceModel SolveModel LinearModel ConcreteBackend Spec_Linear Spec_Assembly Spec_Program Spec_Solve Spec_Conex
  SolveProofs SolveFacts SolveStats SolveLast Prop_Solve ConexFacts ConexStep ConexKkt ConexBlocks ConexNewton ConexDefinite ConexTotal ToyBackend ConexRun.
From Verif Require Import SocLinks.
From Verif Require Spec_Soc SocAlgebra SocCone SocProofs.
Import ListNotations.
Open Scope R_scope.

Notation disk_A := [[0; 1; 0]].
Notation disk_c := [/ 10; 0; / 20].
Definition disk_base : program :=
  match AddConstraint (new_program 1) false (CSoc 2 disk_A disk_c) None with Ok (p, _) => p | _ => new_program 0 end.
Definition disk_program (b : R) : program := fst (AddLinearCost disk_base [- b]).
Definition disk_ready (b : R) (limit : nat) : program :=
  match Initialize (clear (disk_program b)) true limit with Ok p => p | _ => new_program 0 end.

Lemma disk_well b : well_built (disk_program b).
Proof.
  destruct line_build as (d & o & bs & E & H).
  assert (forall v, covered [[0%nat]] v <-> (v < 1)%nat) as HC.
  { intros v. split; [intros (c & [<-|[]] & [<-|[]]); lia|]. intros Hv. exists [0%nat]. split; [left; auto|left; lia]. }
  constructor; cbn.
  - constructor; cbn; [|discriminate|auto|].
    + intros c [<-|[]]. repeat constructor. intros [].
    + intros [|e] He; [|lia]. exists [0%nat]. auto.
  - auto.
  - intros [|[|]] c Hc; try discriminate; injection Hc as <-; reflexivity.
  - exact HC.
  - intros [|[|]] j v []; auto.
  - intros [|[|]] v [].
  - intros d' o' bs' E'. change (build [[0%nat]] [[]] = Ok (d', o', bs')) in E'. rewrite E in E'. injection E' as <- <- <-. auto.
Qed.

Lemma disk_starts b c : starts (disk_program b) c.
Proof. apply starts_iff. split; [reflexivity|cbn; lia]. Qed.
Lemma disk_consistent b : consistent (disk_program b).
Proof. intros [|[|]] c Hc; try discriminate. injection Hc as <-. cbn. repeat split; auto. discriminate. Qed.
Lemma disk_listed b : listed (disk_program b).
Proof. split; [intros i [<-|[]]; cbn; lia|]. split; [|split]; intros [|[|]] c; intros; try discriminate; left; auto. Qed.
Lemma disk_rectangular b : rectangular (disk_program b).
Proof. intros [|[|]] c cols A rhs Hc; try discriminate. injection Hc as <-. discriminate. Qed.
Lemma disk_sized b : sized_cones (disk_program b).
Proof. intros [|[|k]] c m A rhs Hc; try discriminate. injection Hc as <-. intros [= <- <- <-]. split; [repeat constructor|reflexivity]. Qed.
Lemma disk_equalities b : sized_equalities (disk_program b).
Proof. intros [|[|]] co A rhs Hc; try discriminate. injection Hc as <-. discriminate. Qed.
Lemma disk_costs b : on_costs (disk_program b).
Proof. intros [|[|]] co Hc; try discriminate. injection Hc as <-. cbn. repeat constructor. Qed.
Lemma disk_conic b : conic_only (disk_program b).
Proof. split; [intros [|[|]] co Hc; try discriminate; injection Hc as <-; cbn; eauto 6|]. intros dv [<-|[]]. auto. Qed.
Lemma disk_factorable b : factorable (disk_program b).
Proof.
  right. split; [|split; [|split]].
  - intros [|[|]] c Q y Hc; try discriminate. injection Hc as <-. discriminate.
  - intros [|[|]] c A rhs Hc; try discriminate. injection Hc as <-. discriminate.
  - intros dv [<-|[]]. auto.
  - intros z _ H _ _ [|v] Hv; [|cbn in Hv; lia].
    specialize (H 0%nat _ 2%nat disk_A disk_c 1%nat eq_refl eq_refl ltac:(lia)). unfold column_value in H. cbn in H. lra.
Qed.

Lemma disk_initialized b N : Initialize (clear (disk_program b)) true N = Ok (disk_ready b N).
Proof. unfold disk_ready. destruct (Initialize (clear (disk_program b)) true N) eqn:E; auto; vm_compute in E; discriminate. Qed.

Section Disk.
  Variable nf : environment.
  Variable b : R.
  Variable N : nat.
  Notation p := (disk_ready b N).
  Notation B := (conex (Refine 0) nf).

  Lemma disk_fields : p_eqs p = p_eqs (disk_program b) /\ p_cliques p = [[0%nat]] /\ p_duals p = [[]] /\ p_constraints p = [0%nat] /\
    p_cost p = p_cost (disk_program b) /\ p_quadratic p = false /\ SizeOfKKTSystem p = 1%nat.
  Proof.
    destruct (Initialize_fields _ _ _ _ (disk_initialized b N)) as (F1 & F2 & F3 & F4 & F5 & F6 & F7 & F8 & F9).
    rewrite F1, F2, F4, F5, F6, F7. unfold SizeOfKKTSystem. rewrite F6, F8. repeat split; reflexivity.
  Qed.
  Lemma disk_stats : p_stats p = Some (mkStats N None).
  Proof. destruct (Initialize_fields _ _ _ _ (disk_initialized b N)) as (_ & _ & _ & _ & _ & _ & _ & _ & F9). rewrite orb_true_r in F9. apply F9. Qed.
  Lemma disk_ok : ready p.
  Proof.
    apply (initialized_ready (disk_program b) (line_config 0 0 (Z.of_nat N) 0) N); [apply disk_well|left; right; auto|]. apply disk_initialized.
  Qed.

  Definition disk_state (d : option SocModel.spin) : list cstate := [SSoc (mkSocWs 2 (Some (1, fun _ => 0)) d)].
  Lemma disk_shaped st d : ct_cons st = disk_state d -> shaped shape_ok p st.
  Proof.
    intros Hst. destruct disk_fields as (F1 & _). split; [rewrite Hst, F1; reflexivity|]. rewrite F1.
    intros [|[|]] co s Hc Hs; try discriminate. injection Hc as <-. rewrite Hst in Hs. injection Hs as <-.
    cbn. split; auto. eexists. split; [reflexivity|]. apply one_interior.
  Qed.
  Lemma disk_consistent_ready : consistent p.
  Proof. unfold consistent. rewrite (proj1 disk_fields). apply disk_consistent. Qed.

  Lemma euclid2 u v : Spec_Soc.euclid 2 u v = u 0%nat * v 0%nat + u 1%nat * v 1%nat.
  Proof. unfold Spec_Soc.euclid. rewrite !rsum_S. cbn. ring. Qed.

  (** The system at the identity. *)
  Lemma disk_system st d : ct_cons st = disk_state d ->
    exists st0 st1, con_assemble p st = Ok st0 /\ con_factor 0 p st0 = Ok (st1, true) /\
      ct_cons st1 = disk_state d /\ ct_sys st1 = mkRhs [0] [0] (/ 5) (/ 40) /\
      forall st2 r, ct_fact st2 = ct_fact st1 -> con_solve 0 p st2 [r] = Ok [r / 2].
  Proof.
    intros Hst. destruct disk_fields as (F1 & F2 & F3 & F4 & F5 & F6 & F7). pose proof disk_ok as R.
    pose proof (disk_shaped st d Hst) as G. pose proof disk_consistent_ready as HC.
    assert (rectangular p) as HT by (unfold rectangular; rewrite F1; apply disk_rectangular).
    assert (factorable p) as HF.
    { pose proof (disk_factorable b) as HF. unfold factorable, definite, convex in *. rewrite F1, F2, F3, F7. exact HF. }
    destruct (assemble_total p R HC st G) as (st0 & E0 & _). destruct (factor_ok (Refine 0) p R ltac:(intros; discriminate) st st0 G E0) as (st1 & ok & E1 & Hok & Hs).
    specialize (Hok HT (or_introl HF)). subst ok. specialize (Hs eq_refl).
    destruct (assembled p st st0 R E0) as (q & Q1 & Q2 & Q3 & Q4 & Q5 & Q6 & Q7 & Q8 & Q9).
    destruct (solved_system (Refine 0) p st st0 q st1 R E0 Q1 Q9 E1) as (E & S1 & S2 & _ & _ & S4 & _).
    destruct (con_factor_core _ _ _ _ _ E1) as [K1 K2].
    assert (exists sc, q = [(SSoc (mkSocWs 2 (Some (1, fun _ => 0)) d), sc)] /\ sc_rhs sc = mkRhs [0] [0] (/ 5) (/ 40) /\ sc_G sc 0%nat 0%nat = 2) as (sc & Eq & ER & HG).
    { destruct Q1 as [L Q1]. rewrite F1 in L, Q1. destruct q as [|[s' sc] [|]]; try discriminate L.
      destruct (Q1 0%nat _ eq_refl) as (s & Hs' & E2). rewrite Hst in Hs'. injection Hs' as <-.
      unfold con_schur in E2. change (ct_vars _) with 1%nat in E2. cbn [ct_data] in E2.
      apply bind_ok in E2 as (o & Eo & E2). apply bind_ok in E2 as (sc' & Es & E2). injection E2 as <- <-.
      destruct (soc_block _ _ _ _ _ _ _ Eo Es) as (W & EW & _ & _ & _ & _ & _ & BG & L1 & L2 & BA & BQ & Bw & Bc). injection EW as <-.
      exists sc'. split; auto. split; [|rewrite BG].
      - destruct (sc_rhs sc') as [AW AQc wc cQc]. cbn [r_AW r_AQc r_wc r_cQc] in *. specialize (BA 0%nat ltac:(lia)). specialize (BQ 0%nat ltac:(lia)).
        destruct AW as [|a [|]], AQc as [|a' [|]]; try discriminate. cbn [nth] in BA, BQ.
        unfold soc_columns, SocAlgebra.qr, Spec_Soc.inner, Spec_Soc.det, spin_of in BA, BQ, Bw, Bc. cbn [fst snd nth] in BA, BQ, Bw, Bc.
        rewrite ?euclid2 in BA; rewrite ?euclid2 in BQ; rewrite ?euclid2 in Bw; rewrite ?euclid2 in Bc. cbn [nth] in BA, BQ, Bw, Bc.
        f_equal; [f_equal; lra|f_equal; lra|lra|lra].
      - unfold soc_columns, SocAlgebra.qr, Spec_Soc.inner, Spec_Soc.det, spin_of. cbn [fst snd nth]. repeat rewrite euclid2. cbn [nth]. ring. }
    exists st0, st1. split; auto. split; auto. split; [rewrite K1, Q2, Eq; reflexivity|].
    assert (ct_sys st0 = mkRhs [0] [0] (/ 5) (/ 40)) as ES.
    { rewrite F1, Eq, ?F2, ?F7 in *. destruct (ct_sys st0) as [AW AQc wc cQc]. cbn [r_AW r_AQc r_wc r_cQc] in *.
      destruct AW as [|a [|]], AQc as [|a' [|]]; try discriminate. specialize (Q5 0%nat). specialize (Q6 0%nat). cbn in Q5, Q6, Q7, Q8. rewrite ER in Q5, Q6, Q7, Q8. cbn in Q5, Q6, Q7, Q8.
      f_equal; [f_equal; lra|f_equal; lra|lra|lra]. }
    split; [congruence|].
    intros st2 r Hf. destruct (Hs st2 [r] Hf) as (y & Ey & Hy); [rewrite F7; auto|]. rewrite Ey. f_equal. rewrite F7 in Hy.
    destruct y as [|y [|]]; try discriminate. destruct (S4 st2 [r] [y] Hf Ey) as (_ & _ & S). specialize (S (or_introl eq_refl) 0%nat). rewrite F7 in S.
    specialize (S ltac:(lia)). rewrite S2 in S by (intros dv; rewrite F3; intros [<-|[]]; auto).
    unfold matrix_of in S. rewrite F2, Eq in S. unfold row_times, sum_of_blocks, scattered, total, msum in S. cbn in S. rewrite HG in S.
    f_equal. lra.
  Qed.

  (** The direction at the identity is [(1 - c0 w, y, - c2 w)]. *)
  Lemma disk_prepare st d o y : ct_cons st = disk_state d -> op_affine o = false -> op_c_weight o = 10 -> Rabs y <= / 2 ->
    exists st' ni q, PrepareStep B p st o [y] = Ok (st', (ni, q)) /\ 0 <= ni <= 1 /\ shaped shape_ok p st' /\ shaped primed p st'.
  Proof.
    intros Hst Ho Hw Hy. destruct disk_fields as (F1 & F2 & F3 & F4 & F5 & F6 & F7).
    destruct (prepare_total (Refine 0) nf p disk_ok disk_consistent_ready st o [y] (disk_shaped st d Hst) Ho ltac:(rewrite F7; reflexivity)) as (st' & [ni q] & E & G & P).
    exists st', ni, q. split; auto. split; auto.
    unfold PrepareStep, NumberOfConstraints in E. rewrite F1, F2 in E. change (length (p_eqs (disk_program b))) with 1%nat in E. cbn [seq foldM] in E.
    cbn [at_ nth_error bind Vars mapM idx bk_prepare conex] in E. unfold con_prepare, get_con in E. rewrite F1, Hst in E. cbn [nth_error disk_state] in E.
    change (nth_error (p_eqs (disk_program b)) 0) with (Some (mkCont (CSoc 2 disk_A disk_c) 1)) in E. cbn [bind ct_data] in E.
    apply bind_ok in E as ([st1 [n1 q1]] & E & E'). apply bind_ok in E as ([st2 [n2 q2]] & E & E''). injection E' as <- <- <-. injection E'' as <- <- <-.
    apply bind_ok in E as ([co s0] & E1 & E). injection E1 as <- <-. cbn [ct_data] in E. apply bind_ok in E as (o1 & E1 & E). apply bind_ok in E as ([o2 r] & E2 & E). injection E as <- ->.
    destruct (soc_prepared _ _ _ _ _ _ _ _ _ E1 E2) as (w' & x & _ & (W & s & EW & _ & _ & _ & _ & _ & Ha & Hx & _) & Hr). injection EW as <-.
    injection Hr as -> _.
    assert (SocModel.SNormInf 2 x <= 1) as HN.
    { assert (SocAlgebra.enorm (Spec_Soc.euclid 2) (1, fun _ : nat => 0) = 0) as EN.
      { unfold SocAlgebra.enorm. cbn [snd]. rewrite euclid2. replace (0 * 0 + 0 * 0) with 0 by ring. apply sqrt_0. }
      destruct Ha as (Ha & k & Hk & _). rewrite EN in Ha. cbn [fst] in Ha. rewrite Rplus_0_r, Rminus_0_r, sqrt_1 in Ha.
      assert (fst s = 1) as Hs by lra. assert (snd s 0%nat = 0 /\ snd s 1%nat = 0) as [H0 H1] by (rewrite !Hk by lia; cbn [snd]; lra).
      rewrite Hw in Hx. unfold Spec_Soc.direction, Spec_Soc.quadrep, Spec_Soc.jsub, Spec_Soc.jscale, Spec_Soc.jmul, Spec_Soc.jone in Hx. cbn [fst snd] in Hx.
      unfold soc_slack, Spec_Soc.slack in Hx. cbn [fst snd length] in Hx.
      assert (fst x = 0 /\ snd x 0%nat = y /\ snd x 1%nat = - / 2) as (X0 & X1 & X2).
      { rewrite Hx. cbn [fst snd]. unfold Spec_Soc.inner. cbn [fst snd]. rewrite !euclid2, !rsum_S. cbn. rewrite Hs, H0, H1. repeat split; field. }
      assert (SocAlgebra.enorm (Spec_Soc.euclid 2) x <= 1) as HE.
      { unfold SocAlgebra.enorm. rewrite euclid2, X1, X2. rewrite <- sqrt_1. apply sqrt_le_1_alt.
        assert (y * y <= / 4). { rewrite <- (Rabs_pos_eq (y * y)) by apply Rle_0_sqr. rewrite Rabs_mult. replace (/ 4) with (/ 2 * / 2) by field. apply Rmult_le_compat; auto using Rabs_pos. }
        lra. }
      pose proof (SocAlgebra.enorm_pos (Spec_Soc.euclid 2) x) as HP. destruct (SocCone.SNormInf_ok 2 x) as (_ & _ & [HM|HM]); rewrite HM, X0; [rewrite Rabs_pos_eq; lra|].
      rewrite Rminus_0_l, Rabs_Ropp, Rabs_pos_eq; lra. }
    pose proof (norm_bounds 2 x) as (_ & _ & HP). destruct (Rltb_spec (-1) (SocModel.SNormInf 2 x)); lra.
  Qed.

  Variable dual final : Z.
  Notation c := (line_config dual final (Z.of_nat N) 1).
  Hypothesis Hfinal : (0 <= final < Z.of_nat N)%Z.
  Hypothesis Hb : Rabs b <= / 10.

  (** The first iteration ends the loop. *)
  Lemma disk_first s st0 : l_num s = mkNum st0 (line_area N None) -> ct_cons st0 = disk_state None -> l_ism s = 0 -> l_max s = 10 ->
    l_kkt_error s = XFin 0 -> l_log s = [] -> l_centering_steps s = 0%Z ->
    exists s' e, iteration B p c N 0 [b] (Rank B p) 0 s = Ok (VBreak s' false) /\ l_log s' = [e] /\ en_dinf e <= 1 /\ en_ism e = 10.
  Proof.
    intros Hn Hst Hi Hm Hk Hl Hcs. destruct disk_fields as (F1 & F2 & F3 & F4 & F5 & F6 & F7). pose proof disk_ok as RD.
    destruct (line_cells N None ltac:(lia)) as (C1 & C2 & _).
    unfold iteration. change (bk_state B) with cst in *. rewrite Hn, Hi, Hm, Hk, Hcs. cbn [line_config initialization_mode kkt_error_tolerance max_iterations final_centering_steps enable_rescaling Z.eqb].
    destruct (Rleb_spec 10 0); [lra|]. cbn [xgt]. destruct (Rltb_spec 10000000000 0); [lra|].
    replace (Z.of_nat N - final <=? Z.of_nat 0)%Z with false by (symmetry; apply Z.leb_gt; lia). cbn [orb andb Nat.eqb nm_bk nm_area Nat.ltb Nat.leb negb].
    destruct (disk_system st0 None Hst) as (sta & stb & Ea & Eb & Hb1 & S1 & HS).
    change (bk_assemble B) with con_assemble. rewrite Ea. cbn [bind]. change (bk_factor B) with (con_factor (Refine 0)). rewrite Eb. cbn [bind negb].
    rewrite (cell_total _ _ _ C1), (cell_total _ _ _ C2). cbn [bind].
    pose proof (disk_shaped stb None Hb1) as G. pose proof disk_consistent_ready as HC.
    assert (listed p) as HL by (unfold listed; rewrite F1, F4; apply (disk_listed b)).
    destruct (update_mu_total (Refine 0) nf p RD HC c stb [b] 1 1 (Rank B p) 0 G) as (u & Eu & Hu).
    { intros st2 r Hf Hr. rewrite F7 in *. destruct r as [|r [|]]; try discriminate. eexists. split; [apply HS; auto|auto]. }
    { rewrite F7. auto. } { rewrite S1, F7. auto. } { rewrite S1, F7. auto. }
    rewrite Eu. cbn [bind].
    destruct u as [[st2 ism]|].
    2:{ exfalso. apply (update_mu_demand B p c stb [b] 1 1 (Rank B p) 0); [lra| |exact Eu]. unfold quadratic_precondition. rewrite F6. reflexivity. }
    pose proof (update_mu_core _ _ _ _ _ _ _ _ _ _ _ _ Eu) as [W1 W2 W3 W4].
    assert (exists d, ct_cons st2 = disk_state d) as (d & Hst2).
    { unfold weights in W1. rewrite Hb1 in W1. cbn in W1. destruct (ct_cons st2) as [|x [|]]; try discriminate. cbn in W1.
      destruct x as [[[W|] t1 t2]| | |[m0 [W|] d0]| |]; try discriminate. cbn in W1. injection W1 as -> ->. exists d0. reflexivity. }
    unfold finish_iteration. rewrite line_floor. cbn [bind]. cbn [line_config initialization_mode Z.eqb]. rewrite line_limits.
    rewrite (cell_total _ _ _ C1), (cell_total _ _ _ C2). cbn [bind]. change (bk_sys B st2) with (ct_sys st2). rewrite W4, S1.
    cbn [r_AW r_AQc r_wc r_cQc vscale map vplus vminus zip_ bind]. change (bk_solve B) with (con_solve (Refine 0)). rewrite (HS st2 _ W3). cbn [bind].
    match goal with |- context [PrepareStep B p st2 ?o [?y]] => set (yy := y) in *; assert (Rabs yy <= / 2) as Hyy;
      [|destruct (disk_prepare st2 d o yy Hst2 eq_refl) as (st3 & ni & q & E3 & Hni & G3 & P3); [cbn; lra|exact Hyy|]] end.
    { unfold yy. match goal with |- Rabs ?x <= _ => replace x with (5 * b) by field end. rewrite Rabs_mult, (Rabs_pos_eq 5) by lra. lra. }
    change (bk_state B) with cst in *. rewrite E3. cbn [bind]. rewrite andb_false_r. cbn [andb].
    match goal with |- context [TakeStep B p st3 ?o] => destruct (take_total (Refine 0) nf p HC HL st3 o G3 P3 eq_refl) as (st4 & E4 & _) end.
    change (bk_state B) with cst in *. rewrite E4. cbn [bind].
    replace (length (line_area N None) <=? 0)%nat with false.
    2:{ symmetry. apply Nat.leb_gt. unfold line_area. rewrite !upd_length, repeat_length. lia. }
    destruct (Rleb_spec 10 10); [|lra]. cbn [orb andb final_centering_tolerance line_config].
    rewrite (Rabs_pos_eq ni) by lra. destruct (Rleb_spec ni 1); [|lra].
    eexists _, _. split; [reflexivity|]. cbn [l_log]. rewrite Hl. split; [reflexivity|]. cbn. lra.
  Qed.
End Disk.

(** The whole solve: it ends after one iteration with a point that the bound on the
    direction certifies. *)
Lemma disk_handed nf b n final limit : (0 < final < limit)%Z -> Rabs b <= / 10 ->
  exists r y e, handed_back nf (disk_program b) n (line_config 0 final limit 1) r y e /\ length y = 1%nat /\ en_dinf e <= 1 /\ en_ism e = 10.
Proof.
  intros Hf Hb. set (c := line_config 0 final limit 1).
  destruct (cold_handed nf (disk_program b) n c) as (r & y & e & H & Hy);
    auto using disk_starts, disk_well, disk_consistent, disk_listed, disk_rectangular, disk_factorable; try reflexivity.
  { cbn. lia. } { cbn. lra. } { cbn. lra. } { left. cbn. lia. } { discriminate. }
  exists r, y, e. split; auto. split; auto.
  set (N := Z.to_nat limit). assert (limit = Z.of_nat N) as EN by (unfold N; lia).
  destruct (hb_entry _ _ _ _ _ _ _ H) as (t & Et). pose proof (hb_solve _ _ _ _ _ _ _ H) as E.
  change (ConexSolve nf (disk_program b) n c) with (Solve (conex 0 nf) (disk_program b) n c) in E.
  change (conex (mode_of nf c) nf) with (conex 0 nf) in *.
  set (B := conex 0 nf) in *. set (p2 := disk_ready b N).
  destruct (disk_fields b N) as (F1 & F2 & F3 & F4 & F5 & F6 & F7).
  assert (cost_vector p2 = [b]) as EC.
  { unfold cost_vector. fold p2 in F5, F7. rewrite F5, F7. cbn. repeat f_equal. lra. }
  set (s0 := start B (clear (disk_program b)) p2 n c (mkStats N None)).
  destruct (disk_first nf b N 0 final ltac:(lia) Hb s0 (SetIdentity B p2 (con_initialize p2 (nm_bk n)))) as (s' & e' & E1 & E2 & E3 & E4); try reflexivity.
  { unfold s0, start, Initialize_numeric. cbn [c line_config initialization_mode Z.eqb max_iterations]. rewrite orb_true_r. fold N.
    cbn [l_num]. unfold line_area. f_equal. destruct N; [lia|]. reflexivity. }
  change (bk_state (conex 0 nf)) with cst in *. rewrite <- EN in E1. fold c p2 B in E1.
  assert (loop B p2 c N 0 [b] (Rank B p2) N 0 s0 = Ok (VBreak s' false)) as EL.
  { destruct N as [|N'] eqn:EN'; [lia|]. cbn [loop]. rewrite E1. reflexivity. }
  rewrite (Solve_by_loop B _ n c p2 (mkStats N None) (VBreak s' false)) in E;
    [|reflexivity|cbn; lia|apply disk_initialized|apply disk_stats|cbn [ss_max_iter]; rewrite EC; exact EL].
  apply bind_ok in E as (r' & Er & E). injection E as ->. apply finish_spec in Er as (k & _ & _ & Hlog & _).
  change (bk_state B) with cst in *. rewrite Et in Hlog. pose proof (eq_trans Hlog E2) as HH. injection HH as -> _. auto.
Qed.
