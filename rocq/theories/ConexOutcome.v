(** What a solve hands back (C34, C48, C53-C55). *)
From Coq Require Import List Arith ZArith Reals Bool Lia Lra.
From Verif Require Import Base BaseFacts LayoutModel SupernodeModel TriWorkspaceModel AssemblerModel DenseModel BlockModel KktModel
  ProgramModel ApiModel DivergenceModel SolveModel LinearModel ConcreteBackend Spec_Linear Spec_Assembly RhsProofs Spec_Program Spec_Solve Spec_Conex
  SolveProofs SolveFacts SolveStats SolveLast Prop_Solve ConexFacts ConexStep ConexKkt ConexBlocks ConexNewton ConexResult ConexGap.
From Verif Require Import SocLinks Spec_Semidefinite.
From Verif Require Spec_Soc Spec_Hyper HyperFacts LanczosModel HermBound HermLinks HermPairing.
Import ListNotations.
Open Scope R_scope.

Lemma handed_estimated nf p n c r y' e : handed_back nf p n c r y' e ->
  exists p2 M k st bs cs q E y st2 st3 st4 norm nsq D cx by_,
    final_newton nf p c p2 M k y' e st bs cs q E y st2 st3 st4 norm nsq D (nm_area (rt_num _ r)) cx by_ /\
    p_stats (rt_prog _ r) = Some (mkStats M (Some (S k))) /\
    (prepare_dual_variables c = 0%Z -> nm_bk (rt_num _ r) = st4) /\ estimated nf 1 p2 st3 norm.
Proof.
  intros [H1 H2 H3 H4 H5 H6 H7 (t & H8) H9].
  destruct (solve_newton nf p n c r y' H1 H2 H3 H4 H5 H6 H7)
    as (p2 & M & k & e' & t' & st & bs & cs & q & E & y & st2 & st3 & st4 & norm & nsq & D & cx & by_ & s2 & reached & F & Hl & B1 & B2 & B3 & B4 & B5 & B6 & _ & Hf & Hs & Hes).
  rewrite H8 in Hl. injection Hl as <- <-.
  exists p2, M, k, st, bs, cs, q, E, y, st2, st3, st4, norm, nsq, D, cx, by_. split; auto. split; auto. split; auto.
  intros Hd. unfold finish in Hf. set (iters := mode_of nf c) in *.
  change (bk_state (conex iters nf)) with cst in Hf. rewrite B6 in Hf. apply bind_ok in Hf as (stf & Ef & Hf).
  apply bind_ok in Hf as (cs' & _ & Hf). rewrite Hd in Ef. cbn in Ef. injection Ef as <-. injection Hf as <-. cbn. auto.
Qed.

Lemma handed nf p n c r y' e : handed_back nf p n c r y' e ->
  exists p2 M k st bs cs q E y st2 st3 st4 norm nsq D cx by_,
    final_newton nf p c p2 M k y' e st bs cs q E y st2 st3 st4 norm nsq D (nm_area (rt_num _ r)) cx by_ /\
    p_stats (rt_prog _ r) = Some (mkStats M (Some (S k))) /\
    (prepare_dual_variables c = 0%Z -> nm_bk (rt_num _ r) = st4).
Proof.
  intros H. destruct (handed_estimated nf p n c r y' e H) as (p2 & M & k & st & bs & cs & q & E & y & st2 & st3 & st4 & norm & nsq & D & cx & by_ & F & Hs & Hd & _).
  exists p2, M, k, st, bs, cs, q, E, y, st2, st3, st4, norm, nsq, D, cx, by_. auto.
Qed.

Lemma total_map {A B} (f : B -> R) (g : A -> B) l : total f (map g l) = total (fun a => f (g a)) l.
Proof. unfold total. induction l as [|a l IH]; cbn; [auto|]. rewrite IH. auto. Qed.

Lemma equal_cells (ar : list (option R)) k x x' : nth_error ar k = Some (Some x) -> nth_error ar k = Some (Some x') -> x = x'.
Proof. congruence. Qed.

Lemma scalings_estimated nf p n c r y' e bs cs : handed_back nf p n c r y' e -> scalings (rt_prog _ r) (rt_num _ r) bs cs ->
  exists p2 M k st q E y st2 st3 st4 norm nsq D cx by_,
    final_newton nf p c p2 M k y' e st bs cs q E y st2 st3 st4 norm nsq D (nm_area (rt_num _ r)) cx by_ /\
    (prepare_dual_variables c = 0%Z -> nm_bk (rt_num _ r) = st4) /\ estimated nf 1 p2 st3 norm.
Proof.
  intros H (ss & S1 & S2 & S3). destruct (handed_estimated nf p n c r y' e H) as (p2 & M & k & st & bs' & cs' & q & E & y & st2 & st3 & st4 & norm & nsq & D & cx & by_ & F & Hs & Hd & Hes).
  rewrite Hs in S1. injection S1 as <-. cbn in S2, S3.
  pose proof (equal_cells _ _ _ _ (fn_bs _ _ _ _ _ _ _ _ _ _ _ _ _ _ _ _ _ _ _ _ _ _ F) S2) as ->.
  pose proof (equal_cells _ _ _ _ (fn_cs _ _ _ _ _ _ _ _ _ _ _ _ _ _ _ _ _ _ _ _ _ _ F) S3) as ->.
  exists p2, M, k, st, q, E, y, st2, st3, st4, norm, nsq, D, cx, by_. auto.
Qed.

Lemma handed_scalings nf p n c r y' e bs cs : handed_back nf p n c r y' e -> scalings (rt_prog _ r) (rt_num _ r) bs cs ->
  exists p2 M k st q E y st2 st3 st4 norm nsq D cx by_,
    final_newton nf p c p2 M k y' e st bs cs q E y st2 st3 st4 norm nsq D (nm_area (rt_num _ r)) cx by_ /\
    (prepare_dual_variables c = 0%Z -> nm_bk (rt_num _ r) = st4).
Proof.
  intros H HS. destruct (scalings_estimated nf p n c r y' e bs cs H HS) as (p2 & M & k & st & q & E & y & st2 & st3 & st4 & norm & nsq & D & cx & by_ & F & Hd & _).
  exists p2, M, k, st, q, E, y, st2, st3, st4, norm, nsq, D, cx, by_. auto.
Qed.

Lemma handed_scaled nf p n c r y' e : handed_back nf p n c r y' e ->
  exists bs cs, 0 < bs /\ 0 < cs /\ 0 < en_ism e /\ scalings (rt_prog _ r) (rt_num _ r) bs cs.
Proof.
  intros H. destruct (handed nf p n c r y' e H) as (p2 & M & k & st & bs & cs & q & E & y & st2 & st3 & st4 & norm & nsq & D & cx & by_ & F & Hs & Hd).
  exists bs, cs. pose proof (fn_newton _ _ _ _ _ _ _ _ _ _ _ _ _ _ _ _ _ _ _ _ _ _ F) as N.
  split; [apply (nw_bs _ _ _ _ _ _ _ _ _ _ _ _ _ _ _ N)|]. split; [apply (nw_cs _ _ _ _ _ _ _ _ _ _ _ _ _ _ _ N)|].
  split; [apply (nw_ism _ _ _ _ _ _ _ _ _ _ _ _ _ _ _ N)|]. exists (mkStats M (Some (S k))). split; auto.
  split; [apply (fn_bs _ _ _ _ _ _ _ _ _ _ _ _ _ _ _ _ _ _ _ _ _ _ F)|apply (fn_cs _ _ _ _ _ _ _ _ _ _ _ _ _ _ _ _ _ _ _ _ _ _ F)].
Qed.

(** ** C34 *)

Lemma outcome_equality nf p n c r y' e i co A b : handed_back nf p n c r y' e ->
  rectangular p -> sized_equalities p -> on_costs p -> prepare_dual_variables c = 0%Z ->
  exact_pivots p (nm_bk (rt_num _ r)) -> nth_error (p_eqs p) i = Some co -> ct_data co = CEq A b ->
  equality_holds A b (nth i (p_cliques p) []) y'.
Proof.
  intros H HR HE HO Hd HX Hi Ed j Hj.
  destruct (handed nf p n c r y' e H) as (p2 & M & k & st & bs & cs & q & E & y & st2 & st3 & st4 & norm & nsq & D & cx & by_ & F & Hs & Hn).
  rewrite (Hn Hd) in HX. pose proof (exact_final _ _ _ _ _ _ _ _ _ _ _ _ _ _ _ _ _ _ _ _ _ _ F HX) as HE0.
  pose proof (final_equality _ _ _ _ _ _ _ _ _ _ _ _ _ _ _ _ _ _ _ _ _ _ i co A b j F HR HE HO (hb_mu _ _ _ _ _ _ _ H) (or_intror HE0) Hi Ed Hj) as HF.
  cbv zeta in HF. rewrite HE0 in HF.
  pose proof (fin_ism _ _ _ _ _ _ _ _ _ _ _ _ _ _ _ _ _ _ _ _ _ _ F). pose proof (fin_cs _ _ _ _ _ _ _ _ _ _ _ _ _ _ _ _ _ _ _ _ _ _ F).
  assert (0 < en_ism e * cs) by (apply Rmult_lt_0_compat; auto). apply (Rmult_eq_reg_r (en_ism e * cs)); lra.
Qed.

Lemma outcome_residual nf p n c r y' e bs cs i co A b : handed_back nf p n c r y' e -> scalings (rt_prog _ r) (rt_num _ r) bs cs ->
  rectangular p -> sized_equalities p -> on_costs p -> prepare_dual_variables c = 0%Z -> (iterative_refinement_iterations c <= 0)%Z ->
  nth_error (p_eqs p) i = Some co -> ct_data co = CEq A b ->
  exists l, nth_error (ct_cons (nm_bk (rt_num _ r))) i = Some (SEq l) /\ length l = length A /\
    forall j, (j < length A)%nat ->
      Rabs (residual A b (nth i (p_cliques p) []) y' j) <= 2 / 1000000000 * Rabs (nth j l 0) / (en_ism e * cs).
Proof.
  intros H HS HR HE HO Hd Hit Hi Ed.
  destruct (handed_scalings nf p n c r y' e bs cs H HS) as (p2 & M & k & st & q & E & y & st2 & st3 & st4 & norm & nsq & D & cx & by_ & F & Hn).
  rewrite (Hn Hd).
  destruct (final_multipliers _ _ _ _ _ _ _ _ _ _ _ _ _ _ _ _ _ _ _ _ _ _ i co A b F HE Hi Ed) as (l & L1 & L2 & L3).
  exists l. split; auto. split; auto. intros j Hj. assert (mode_of nf c = Refine 0 \/ (forall u, E u = 0)) as Hit0.
  { destruct (Z.eqb_spec (kkt_solver c) 2) as [Hk|Hk].
    - right. apply (nw_qr _ _ _ _ _ _ _ _ _ _ _ _ _ _ _ (fn_newton _ _ _ _ _ _ _ _ _ _ _ _ _ _ _ _ _ _ _ _ _ _ F) (env_qr nf)). unfold mode_of. rewrite Hk. auto.
    - left. unfold mode_of. apply Z.eqb_neq in Hk. rewrite Hk. f_equal. lia. }
  pose proof (final_equality _ _ _ _ _ _ _ _ _ _ _ _ _ _ _ _ _ _ _ _ _ _ i co A b j F HR HE HO (hb_mu _ _ _ _ _ _ _ H) Hit0 Hi Ed Hj) as HF.
  cbv zeta in HF. rewrite <- L3 in HF by auto.
  pose proof (fin_ism _ _ _ _ _ _ _ _ _ _ _ _ _ _ _ _ _ _ _ _ _ _ F). pose proof (fin_cs _ _ _ _ _ _ _ _ _ _ _ _ _ _ _ _ _ _ _ _ _ _ F).
  assert (0 < en_ism e * cs) as Hp by (apply Rmult_lt_0_compat; auto).
  set (u := nth j (nth i (p_duals p) []) 0%nat) in *.
  assert (residual A b (nth i (p_cliques p) []) y' j = - (E u * nth j l 0) / (en_ism e * cs)) as ->.
  { unfold residual. apply (Rmult_eq_reg_r (en_ism e * cs)); [|lra]. replace (- (E u * nth j l 0) / (en_ism e * cs) * (en_ism e * cs)) with (- (E u * nth j l 0)) by (field; split; lra). lra. }
  unfold Rdiv at 1. rewrite Rabs_mult, Rabs_Ropp, Rabs_mult, (Rabs_right (/ (en_ism e * cs))).
  2:{ apply Rle_ge, Rlt_le, Rinv_0_lt_compat. auto. }
  apply Rmult_le_compat_r; [apply Rlt_le, Rinv_0_lt_compat; auto|]. apply Rmult_le_compat_r; [apply Rabs_pos|].
  apply (nw_E _ _ _ _ _ _ _ _ _ _ _ _ _ _ _ (fn_newton _ _ _ _ _ _ _ _ _ _ _ _ _ _ _ _ _ _ _ _ _ _ F)).
Qed.

(** ** Suboptimality *)

Lemma outcome_near nf p n c r y' e bs cs z : handed_back nf p n c r y' e -> scalings (rt_prog _ r) (rt_num _ r) bs cs ->
  rectangular p -> sized_equalities p -> on_costs p -> convex p -> prepare_dual_variables c = 0%Z ->
  exact_pivots p (nm_bk (rt_num _ r)) -> (forall i co, nth_error (p_eqs p) i = Some co -> in_cone co -> en_dinf e <= 1) -> no_matrices p -> feasible p z ->
  objective p (cs / bs) y' <= objective p (cs / bs) z + inequalities p * (1 / (en_ism e * en_ism e)) / (bs * cs).
Proof.
  intros H HS HR HE HO HC Hd HX Hdi Hno Hz.
  destruct (handed_scalings nf p n c r y' e bs cs H HS) as (p2 & M & k & st & q & E & y & st2 & st3 & st4 & norm & nsq & D & cx & by_ & F & Hn).
  rewrite (Hn Hd) in HX. pose proof (exact_final _ _ _ _ _ _ _ _ _ _ _ _ _ _ _ _ _ _ _ _ _ _ F HX) as HE0.
  pose proof (fin_objective _ _ _ _ _ _ _ _ _ _ _ _ _ _ _ _ _ _ _ _ _ _ F HR HE HO (hb_mu _ _ _ _ _ _ _ H) z HE0 Hdi ltac:(intros i co h m As C Hi Ed; destruct (Hno i co h m As C Hi Ed)) HC Hz) as HF.
  pose proof (gap_bound p D) as HG.
  pose proof (fin_ism _ _ _ _ _ _ _ _ _ _ _ _ _ _ _ _ _ _ _ _ _ _ F). pose proof (fin_cs _ _ _ _ _ _ _ _ _ _ _ _ _ _ _ _ _ _ _ _ _ _ F).
  pose proof (fin_bs _ _ _ _ _ _ _ _ _ _ _ _ _ _ _ _ _ _ _ _ _ _ F).
  eapply Rle_trans; [exact HF|]. apply Rplus_le_compat_l.
  replace (inequalities p * (1 / (en_ism e * en_ism e)) / (bs * cs)) with (inequalities p / (en_ism e * en_ism e * bs * cs)) by (field; lra).
  apply Rmult_le_compat_r; auto. apply Rlt_le, Rinv_0_lt_compat. repeat apply Rmult_lt_0_compat; auto.
Qed.

Lemma outcome_suboptimal nf p n c r y' e bs cs z : handed_back nf p n c r y' e -> scalings (rt_prog _ r) (rt_num _ r) bs cs ->
  rectangular p -> sized_equalities p -> on_costs p -> convex p -> prepare_dual_variables c = 0%Z ->
  exact_pivots p (nm_bk (rt_num _ r)) -> en_dinf e <= 1 -> no_matrices p -> feasible p z ->
  objective p (cs / bs) y' <= objective p (cs / bs) z + inequalities p * (1 / (en_ism e * en_ism e)) / (bs * cs).
Proof. intros. eapply outcome_near; eauto. Qed.

(** Accurate estimates bound the pencil of slack and scaling point. *)
Lemma estimated_cone nf p c p2 M k y' e st bs cs q E y st2 st3 st4 norm nsq D ar cx by_ eps :
  final_newton nf p c p2 M k y' e st bs cs q E y st2 st3 st4 norm nsq D ar cx by_ -> on_costs p -> 1 / (en_ism e * en_ism e) <= infeasibility_threshold c ->
  estimated nf 1 p2 st3 norm -> 0 <= eps -> accurate eps (env_estimate nf) ->
  forall i co h m As C, nth_error (p_eqs p) i = Some co -> ct_data co = CHerm h m As C ->
  let S := herm_slack As C (nth i (p_cliques p) []) y' in let X := listed_matrix m (duals_of st3 D i) in
  (en_dinf e + eps <= 1 -> herm_psd h m S /\ herm_psd h m X) /\
  (en_dinf e + eps < 1 -> nonzero h m S -> herm_pd h m S /\ herm_pd h m X).
Proof.
  intros F HO Hmu He Heps HA i co h m As C Hi Ed S X.
  destruct (fin_pencil _ _ _ _ _ _ _ _ _ _ _ _ _ _ _ _ _ _ _ _ _ _ F HO Hmu i co h m As C Hi Ed) as (a & w & W & WS & S0 & Hw & HW & HWS & Ha & Eh & Hm & HP & HH & HM & HS & C1 & C2).
  pose proof (fn_fields _ _ _ _ _ _ _ _ _ _ _ _ _ _ _ _ _ _ _ _ _ _ F) as (F1 & _).
  pose proof (fin_ism _ _ _ _ _ _ _ _ _ _ _ _ _ _ _ _ _ _ _ _ _ _ F) as Pi. pose proof (fin_cs _ _ _ _ _ _ _ _ _ _ _ _ _ _ _ _ _ _ _ _ _ _ F) as Pc.
  assert (0 < en_ism e * cs) as Pic by (apply Rmult_lt_0_compat; auto).
  rewrite <- F1 in Hi. destruct (He i co h m As C w W WS Hi Ed Hw HW HWS) as (dr & Hdr).
  pose proof (HA dr a m WS W S0 Ha Hm HP HH HM) as HB. rewrite <- Eh in HB.
  pose proof (fn_dinf _ _ _ _ _ _ _ _ _ _ _ _ _ _ _ _ _ _ _ _ _ _ F) as Hd. pose proof (Rle_abs norm) as Hn. rewrite <- Hd in Hn.
  assert (forall z, 0 <= Spec_Hyper.form m (Spec_Hyper.matrix_of a W) z) as HF0.
  { intros z. exact (HermPairing.posdef_nonneg a m _ HP z). }
  assert (forall lo hi, LanczosModel.norm_from 1 lo hi <= norm -> -1 - lo <= en_dinf e /\ 1 + hi <= en_dinf e) as HL.
  { intros lo hi Hl. unfold LanczosModel.norm_from in Hl. pose proof (Rle_abs (1 + hi)). pose proof (Rle_abs (- (1 + lo))) as H1. rewrite Rabs_Ropp in H1.
    destruct (Rlt_dec (Rabs (1 + lo)) (Rabs (1 + hi))); lra. }
  destruct (env_estimate nf dr h m WS W) as [[lo hi]|].
  - destruct (HL lo hi Hdr) as [L1 L2]. split.
    + intros H. apply C1. intros z. specialize (HB z). specialize (HF0 z). cbv zeta in HB. split; nra.
    + intros H _. apply C2. intros z Hz. specialize (HB z). cbv zeta in HB. pose proof (proj2 HP z Hz) as HF1. split; nra.
  - assert (forall t r0 c0, (t < h)%nat -> (r0 < m)%nat -> (c0 < m)%nat -> S t r0 c0 = 0) as HZ.
    { intros t r0 c0 H1 H2 H3. specialize (HB t r0 c0 H1 H2 H3). rewrite HS in HB. fold S in HB.
      apply (Rmult_eq_reg_l (- (en_ism e * cs))); lra. }
    split.
    + intros _. apply C1. intros z.
      assert (Spec_Hyper.form m (Spec_Hyper.mmul m (Spec_Hyper.mmul m (Spec_Hyper.matrix_of a W) (Spec_Hyper.matrix_of a S0)) (Spec_Hyper.matrix_of a W)) z = 0) as ->; [|specialize (HF0 z); lra].
      apply HermPairing.form_zero_middle. intros t r0 c0 H1 H2 H3. apply HB; auto. rewrite Eh in *. auto.
    + intros _ (t & r0 & c0 & H1 & H2 & H3 & H4). destruct H4. apply HZ; auto.
Qed.

(** With Hermitian constraints: the numbers [q] measure the distance from the
    central path. *)
Lemma outcome_semidefinite nf p n c r y' e bs cs : handed_back nf p n c r y' e -> scalings (rt_prog _ r) (rt_num _ r) bs cs ->
  rectangular p -> sized_equalities p -> on_costs p -> convex p -> prepare_dual_variables c = 0%Z ->
  exact_pivots p (nm_bk (rt_num _ r)) -> en_dinf e <= 1 ->
  let mu := 1 / (en_ism e * en_ism e) in
  exists (q : nat -> R) (X : nat -> nat -> nat -> nat -> R),
    (forall i co h m As C, nth_error (p_eqs p) i = Some co -> ct_data co = CHerm h m As C ->
      let S := herm_slack As C (nth i (p_cliques p) []) y' in
      0 <= q i /\ scaled_pair h m (bs * cs / mu) S (X i) /\ herm_inner h m S (X i) = mu * (INR m - q i) / (bs * cs) /\
      (q i <= 1 -> herm_psd h m S /\ herm_psd h m (X i)) /\ (q i < 1 -> herm_pd h m S /\ herm_pd h m (X i)) /\
      forall eps, 0 <= eps -> accurate eps (env_estimate nf) ->
        (en_dinf e + eps <= 1 -> herm_psd h m S /\ herm_psd h m (X i)) /\
        (en_dinf e + eps < 1 -> nonzero h m S -> herm_pd h m S /\ herm_pd h m (X i))) /\
    forall z, (forall i co h m As C, nth_error (p_eqs p) i = Some co -> ct_data co = CHerm h m As C -> herm_psd h m (X i)) -> feasible p z ->
      objective p (cs / bs) y' <= objective p (cs / bs) z + inequalities p * mu / (bs * cs).
Proof.
  intros H HS HR HE HO HC Hd HX Hdi mu.
  destruct (scalings_estimated nf p n c r y' e bs cs H HS) as (p2 & M & k & st & q & E & y & st2 & st3 & st4 & norm & nsq & D & cx & by_ & F & Hn & Hes).
  rewrite (Hn Hd) in HX. pose proof (exact_final _ _ _ _ _ _ _ _ _ _ _ _ _ _ _ _ _ _ _ _ _ _ F HX) as HE0.
  pose proof (hb_mu _ _ _ _ _ _ _ H) as Hmu.
  pose proof (fin_ism _ _ _ _ _ _ _ _ _ _ _ _ _ _ _ _ _ _ _ _ _ _ F) as Pi. pose proof (fin_cs _ _ _ _ _ _ _ _ _ _ _ _ _ _ _ _ _ _ _ _ _ _ F) as Pc.
  pose proof (fin_bs _ _ _ _ _ _ _ _ _ _ _ _ _ _ _ _ _ _ _ _ _ _ F) as Pb.
  pose proof (fun eps H1 H2 => estimated_cone nf p c p2 M k y' e st bs cs q E y st2 st3 st4 norm nsq D _ cx by_ eps F HO Hmu Hes H1 H2) as HEC.
  set (ism := en_ism e) in *. set (s := ism * bs). assert (0 < s) as Ps by (apply Rmult_lt_0_compat; auto).
  assert (0 < ism * cs) as Pic by (apply Rmult_lt_0_compat; auto). assert (0 < / s) as Pis by (apply Rinv_0_lt_compat; auto).
  set (X := fun i t r0 c0 => / s * listed_matrix (match nth_error (p_eqs p) i with Some co => match ct_data co with CHerm _ m _ _ => m | _ => 0%nat end | None => 0%nat end) (duals_of st3 D i) t r0 c0).
  assert (forall i co h m As C, nth_error (p_eqs p) i = Some co -> ct_data co = CHerm h m As C -> forall t r0 c0, X i t r0 c0 = / s * listed_matrix m (duals_of st3 D i) t r0 c0) as HXm.
  { intros i co h m As C Hi Ed t r0 c0. unfold X. rewrite Hi, Ed. reflexivity. }
  clearbody X.
  exists (fun i => vdot (nth i D []) (nth i D [])), X. split.
  - intros i co h m As C Hi Ed S0.
    destruct (fin_matrix _ _ _ _ _ _ _ _ _ _ _ _ _ _ _ _ _ _ _ _ _ _ F HO Hmu i co h m As C Hi Ed) as (_ & Z & L1 & L2 & L3 & L4 & L5).
    split.
    { rewrite vdot_total. apply Rle_trans with (total (fun _ : nat => 0) (seq 0 (length (nth i D [])))); [rewrite total_zero by auto; lra|].
      apply total_le. intros k0 _. pose proof (Rle_0_sqr (nth k0 (nth i D []) 0)) as HQ. exact HQ. }
    fold ism in L2, L5. fold S0 in L2, L3, L4, L5.
    pose proof (HXm i co h m As C Hi Ed) as HXi. rewrite L1 in HXi.
    assert (forall t r0 c0, (t < h)%nat -> (r0 < m)%nat -> (c0 < m)%nat -> X i t r0 c0 = / s * Z t r0 c0) as HYZ.
    { intros t r0 c0 H1 H2 H3. rewrite HXi. unfold listed_matrix. rewrite HermBound.entries_nth by auto. reflexivity. }
    split. { apply (HermPairing.scaled_pair_multiple h m (ism * cs) _ S0 Z (X i) (/ s)); auto. unfold mu, s. field. lra. }
    split. { rewrite herm_inner_comm, (herm_inner_multiple h m Z (X i) S0 (/ s) HYZ), herm_inner_comm. apply (Rmult_eq_reg_r (ism * cs)); [|lra].
      rewrite Rmult_assoc, L2. unfold mu, s. field. lra. }
    destruct (HermPairing.herm_multiple h m Z (X i) (/ s) Pis HYZ) as [M1 M2].
    split. { intros HQ. destruct (L3 HQ). auto. } split. { intros HQ. destruct (L4 HQ). auto. }
    intros eps Heps HA. destruct (HEC eps Heps HA i co h m As C Hi Ed) as [K1 K2]. rewrite L1 in K1, K2. fold S0 in K1, K2.
    split; [intros HQ; destruct (K1 HQ) as [Q1 Q2]; apply (proj1 (listed_psd h m Z)) in Q2|intros HQ HN; destruct (K2 HQ HN) as [Q1 Q2]; apply (proj1 (listed_pd h m Z)) in Q2]; auto.
  - intros z HN Hz.
    assert (near_matrices p st3 D) as HNm.
    { intros i co h m As C Hi Ed. specialize (HN i co h m As C Hi Ed). refine (proj1 (HermPairing.herm_multiple h m (X i) _ s Ps _) HN).
      intros t r0 c0 H1 H2 H3. rewrite (HXm i co h m As C Hi Ed). field. lra. }
    pose proof (fin_objective _ _ _ _ _ _ _ _ _ _ _ _ _ _ _ _ _ _ _ _ _ _ F HR HE HO Hmu z HE0 (fun _ _ _ _ => Hdi) HNm HC Hz) as HF.
    pose proof (gap_bound p D) as HG. eapply Rle_trans; [exact HF|]. apply Rplus_le_compat_l. fold ism.
    replace (inequalities p * mu / (bs * cs)) with (inequalities p / (ism * ism * bs * cs)) by (unfold mu; field; lra).
    apply Rmult_le_compat_r; auto. apply Rlt_le, Rinv_0_lt_compat. repeat apply Rmult_lt_0_compat; auto.
Qed.

(** ** C48 *)

(** The duals of the last iterate. *)
Lemma outcome_conic_gap nf p n c r y' e bs cs : handed_back nf p n c r y' e -> scalings (rt_prog _ r) (rt_num _ r) bs cs ->
  rectangular p -> on_costs p -> conic_only p ->
  exists X D,
    (forall u, (u < SizeOfKKTSystem p)%nat -> gradient p X [] 0 u = - nth u (p_cost p) 0) /\
    (forall i co cols A b, nth_error (p_eqs p) i = Some co -> ct_data co = CLinear cols A b ->
      length (X i) = length A /\ length (nth i D []) = length A /\
      forall k, (k < length A)%nat ->
        let d := nth k (nth i D []) 0 in
        Rabs d <= en_dinf e /\
        (exists w, 0 < w /\ nth k (X i) 0 = w * (1 + d)) /\
        slack_of A b (nth i (p_cliques p) []) y' k * nth k (X i) 0 = 1 / (en_ism e * en_ism e) * (1 - d * d) / (bs * cs)) /\
    (forall i co m A b, nth_error (p_eqs p) i = Some co -> ct_data co = CSoc m A b ->
      length (X i) = (m + 1)%nat /\ length (nth i D []) = (m + 1)%nat /\
      (en_dinf e <= 1 -> lorentz m (fun k => nth k (X i) 0)) /\
      total (fun k => cone_slack A b (nth i (p_cliques p) []) y' k * nth k (X i) 0) (seq 0 (m + 1)) =
        1 / (en_ism e * en_ism e) * (2 - 2 * total (fun k => nth k (nth i D []) 0 * nth k (nth i D []) 0) (seq 0 (m + 1))) / (bs * cs)) /\
    (forall i co h m As C, nth_error (p_eqs p) i = Some co -> ct_data co = CHerm h m As C ->
      let S := herm_slack As C (nth i (p_cliques p) []) y' in let Y := listed_matrix m (X i) in let mu := 1 / (en_ism e * en_ism e) in
      length (X i) = (h * m * m)%nat /\ scaled_pair h m (bs * cs / mu) S Y /\
      herm_inner h m S Y = mu * (INR m - square_sum (nth i D [])) / (bs * cs) /\
      (square_sum (nth i D []) <= 1 -> herm_psd h m S /\ herm_psd h m Y) /\
      (square_sum (nth i D []) < 1 -> herm_pd h m S /\ herm_pd h m Y) /\
      forall eps, 0 <= eps -> accurate eps (env_estimate nf) ->
        (en_dinf e + eps <= 1 -> herm_psd h m S /\ herm_psd h m Y) /\
        (en_dinf e + eps < 1 -> nonzero h m S -> herm_pd h m S /\ herm_pd h m Y)) /\
    length D = length (p_eqs p) /\
    linear_cost p y' + dual_value p X = 1 / (en_ism e * en_ism e) * (inequalities p - squares p D) / (bs * cs).
Proof.
  intros H HS HR HO HL.
  destruct (scalings_estimated nf p n c r y' e bs cs H HS) as (p2 & M & k & st & q & E & y & st2 & st3 & st4 & norm & nsq & D & cx & by_ & F & Hn & Hes).
  pose proof (fn_newton _ _ _ _ _ _ _ _ _ _ _ _ _ _ _ _ _ _ _ _ _ _ F) as N.
  pose proof (fn_fields _ _ _ _ _ _ _ _ _ _ _ _ _ _ _ _ _ _ _ _ _ _ F) as (F1 & F2 & F3 & F4 & F5 & F6 & F7).
  pose proof (fn_ready _ _ _ _ _ _ _ _ _ _ _ _ _ _ _ _ _ _ _ _ _ _ F) as R.
  pose proof (hb_mu _ _ _ _ _ _ _ H) as Hmu.
  assert (sized_equalities p) as HE. { intros i co A b Hi Ed. destruct (proj1 HL i co Hi) as [(? & ? & ? & Ed')|[(? & ? & ? & Ed')|(? & ? & ? & ? & Ed')]]; congruence. }
  assert (forall u, E u = 0) as HE0.
  { apply (nw_plain _ _ _ _ _ _ _ _ _ _ _ _ _ _ _ N). unfold no_multipliers. rewrite F3. apply HL. }
  assert (rectangular p2) as HR2 by (unfold rectangular; rewrite F1; auto).
  assert (sized_equalities p2) as HE2 by (unfold sized_equalities; rewrite F1, F2, F3; auto).
  pose proof (newton_gradient _ _ _ _ _ _ _ _ _ _ _ _ _ _ _ R HR2 HE2 N (or_intror HE0)) as HG. rewrite F5 in HG.
  pose proof (fin_ism _ _ _ _ _ _ _ _ _ _ _ _ _ _ _ _ _ _ _ _ _ _ F) as Pi. pose proof (fin_cs _ _ _ _ _ _ _ _ _ _ _ _ _ _ _ _ _ _ _ _ _ _ F) as Pc.
  pose proof (fin_bs _ _ _ _ _ _ _ _ _ _ _ _ _ _ _ _ _ _ _ _ _ _ F) as Pb.
  pose proof (fun eps H1 H2 => estimated_cone nf p c p2 M k y' e st bs cs q E y st2 st3 st4 norm nsq D _ cx by_ eps F HO Hmu Hes H1 H2) as HEC.
  set (ism := en_ism e) in *. set (s := ism * bs). assert (0 < s) as Ps by (apply Rmult_lt_0_compat; auto).
  assert (0 < ism * cs) as Pic by (apply Rmult_lt_0_compat; auto).
  set (V := duals_of st3 D) in *. set (X := fun i => map (fun x => x / s) (V i)).
  assert (forall i j, nth j (V i) 0 = s * nth j (X i) 0) as HVX.
  { intros i j. unfold X. destruct (le_lt_dec (length (V i)) j) as [Hj|Hj].
    - rewrite !nth_overflow; auto; [ring|rewrite map_length; auto].
    - rewrite (nth_map_lt _ _ _ 0 0) by auto. field. lra. }
  assert (forall i j, nth j (X i) 0 = nth j (V i) 0 / s) as HXV by (intros i j; rewrite HVX; field; lra).
  exists X, D.
  assert (forall i co cols A b, nth_error (p_eqs p) i = Some co -> ct_data co = CLinear cols A b ->
      length (X i) = length A /\ length (nth i D []) = length A /\
      forall k, (k < length A)%nat ->
        let d := nth k (nth i D []) 0 in
        Rabs d <= en_dinf e /\
        (exists w, 0 < w /\ nth k (X i) 0 = w * (1 + d)) /\
        slack_of A b (nth i (p_cliques p) []) y' k * nth k (X i) 0 = 1 / (ism * ism) * (1 - d * d) / (bs * cs)) as HROW.
  { intros i co cols A b Hi Ed.
    destruct (fin_linear _ _ _ _ _ _ _ _ _ _ _ _ _ _ _ _ _ _ _ _ _ _ F HR HO Hmu i co cols A b Hi Ed) as (_ & _ & L1 & L2 & L3).
    split. { unfold X. rewrite map_length. auto. } split; auto. intros k0 Hk d. destruct (L3 k0 Hk) as (w & W1 & W2 & W3 & _).
    split; auto. split. { exists (w / s). split; [apply Rdiv_lt_0_compat; auto|]. rewrite HXV. unfold V. rewrite W2. unfold d. field. lra. }
    rewrite HXV. pose proof (fin_product _ _ _ _ _ _ _ _ _ _ _ _ _ _ _ _ _ _ _ _ _ _ F HR HO Hmu i co cols A b k0 Hi Ed Hk) as HP.
    unfold slack_of. fold V in HP. unfold Rdiv at 1. rewrite <- Rmult_assoc, HP. fold d. unfold s. fold ism. field. lra. }
  assert (forall i co m A b, nth_error (p_eqs p) i = Some co -> ct_data co = CSoc m A b ->
      length (X i) = (m + 1)%nat /\ length (nth i D []) = (m + 1)%nat /\
      (en_dinf e <= 1 -> lorentz m (fun k => nth k (X i) 0)) /\
      total (fun k => cone_slack A b (nth i (p_cliques p) []) y' k * nth k (X i) 0) (seq 0 (m + 1)) =
        1 / (ism * ism) * (2 - 2 * total (fun k => nth k (nth i D []) 0 * nth k (nth i D []) 0) (seq 0 (m + 1))) / (bs * cs)) as HCONE.
  { intros i co m A b Hi Ed.
    destruct (fin_cone _ _ _ _ _ _ _ _ _ _ _ _ _ _ _ _ _ _ _ _ _ _ F HO Hmu i co m A b Hi Ed) as (_ & sq & d & sl & L1 & L2 & _).
    fold V in L1. split. { unfold X. rewrite map_length, L1. apply list_of_length. } split. { rewrite L2. apply list_of_length. }
    split.
    - intros Hdi. destruct (fin_cone_dual _ _ _ _ _ _ _ _ _ _ _ _ _ _ _ _ _ _ _ _ _ _ F HO Hmu i co m A b Hi Ed Hdi) as (x & E1 & C1). fold V in E1.
      apply lorentz_entries in C1. apply (lorentz_scale m (entry_of x) _ (/ s)); [apply Rinv_0_lt_compat; auto| |exact C1].
      intros k0 Hk. rewrite HXV, E1, list_of_entry by lia. unfold Rdiv. ring.
    - pose proof (fin_cone_product _ _ _ _ _ _ _ _ _ _ _ _ _ _ _ _ _ _ _ _ _ _ F HO Hmu i co m A b Hi Ed) as HP. fold V in HP.
      unfold gap_of in HP. rewrite Hi, Ed in HP. rewrite vdot_total in HP. rewrite L2 in HP |- *. rewrite list_of_length in HP. fold ism in HP.
      transitivity (/ s * total (fun k0 => cone_slack A b (nth i (p_cliques p) []) y' k0 * nth k0 (V i) 0) (seq 0 (m + 1))).
      { rewrite <- total_scale. apply total_ext. intros k0 _. rewrite HXV. unfold Rdiv. ring. }
      rewrite HP. unfold s. field. lra. }
  assert (forall i co h m As C, nth_error (p_eqs p) i = Some co -> ct_data co = CHerm h m As C ->
      let S := herm_slack As C (nth i (p_cliques p) []) y' in let Y := listed_matrix m (X i) in let mu := 1 / (ism * ism) in
      length (X i) = (h * m * m)%nat /\ scaled_pair h m (bs * cs / mu) S Y /\
      herm_inner h m S Y = mu * (INR m - square_sum (nth i D [])) / (bs * cs) /\
      (square_sum (nth i D []) <= 1 -> herm_psd h m S /\ herm_psd h m Y) /\
      (square_sum (nth i D []) < 1 -> herm_pd h m S /\ herm_pd h m Y) /\
      forall eps, 0 <= eps -> accurate eps (env_estimate nf) ->
        (en_dinf e + eps <= 1 -> herm_psd h m S /\ herm_psd h m Y) /\
        (en_dinf e + eps < 1 -> nonzero h m S -> herm_pd h m S /\ herm_pd h m Y)) as HMAT.
  { intros i co h m As C Hi Ed S0 Y mu.
    destruct (fin_matrix _ _ _ _ _ _ _ _ _ _ _ _ _ _ _ _ _ _ _ _ _ _ F HO Hmu i co h m As C Hi Ed) as (_ & Z & L1 & L2 & L3 & L4 & L5).
    fold V in L1. fold ism in L2, L5. fold S0 in L2, L3, L4, L5. rewrite vdot_total in L2, L3, L4. fold (square_sum (nth i D [])) in L2, L3, L4.
    assert (forall t r0 c0, (t < h)%nat -> (r0 < m)%nat -> (c0 < m)%nat -> Y t r0 c0 = / s * Z t r0 c0) as HYZ.
    { intros t r0 c0 H1 H2 H3. unfold Y, listed_matrix. rewrite HXV, L1, HermBound.entries_nth by auto. unfold Rdiv. ring. }
    assert (0 < / s) as Pis by (apply Rinv_0_lt_compat; auto).
    split. { unfold X. rewrite map_length, L1. apply HermBound.entries_length. }
    split. { apply (HermPairing.scaled_pair_multiple h m (ism * cs) _ S0 Z Y (/ s)); auto. unfold mu, s. field. lra. }
    split. { rewrite herm_inner_comm, (herm_inner_multiple h m Z Y S0 (/ s) HYZ), herm_inner_comm. apply (Rmult_eq_reg_r (ism * cs)); [|lra].
      rewrite Rmult_assoc, L2. unfold mu, s. field. lra. }
    destruct (HermPairing.herm_multiple h m Z Y (/ s) Pis HYZ) as [M1 M2].
    split. { intros HQ. destruct (L3 HQ). auto. } split. { intros HQ. destruct (L4 HQ). auto. }
    intros eps Heps HA. destruct (HEC eps Heps HA i co h m As C Hi Ed) as [K1 K2]. fold V in K1, K2. rewrite L1 in K1, K2. fold S0 in K1, K2.
    split; [intros HQ; destruct (K1 HQ) as [Q1 Q2]; apply (proj1 (listed_psd h m Z)) in Q2|intros HQ HN; destruct (K2 HQ HN) as [Q1 Q2]; apply (proj1 (listed_pd h m Z)) in Q2]; auto. }
  split; [|split; [exact HROW|split; [exact HCONE|split; [exact HMAT|split]]]].
  - intros u Hu. specialize (HG u Hu). rewrite HE0, Rmult_0_l, Rplus_0_r, cost_vector_nth, F4 in HG.
    assert (gradient p2 V y (ism * cs) u = gradient p V y (ism * cs) u) as EG by (unfold gradient, contribution; rewrite F1, F2; reflexivity).
    rewrite EG, (gradient_scale p X V y (ism * cs) s u HL HVX) in HG. unfold s in HG. apply (Rmult_eq_reg_l (ism * bs)); [lra|]. unfold s in Ps. lra.
  - rewrite (nw_len _ _ _ _ _ _ _ _ _ _ _ _ _ _ _ N), F1. auto.
  - pose proof (paired_total _ _ _ _ _ _ _ _ _ _ _ _ _ _ _ _ _ _ _ _ _ _ F HR HE [] HE0) as HT.
    assert (cost_of p [] = 0) as HC0. { unfold cost_of. apply total_zero. intros v _. destruct v; cbn; ring. }
    rewrite HC0 in HT. unfold linear_cost. change (total (fun v => nth v (p_cost p) 0 * nth v y' 0) (seq 0 (length (p_cost p)))) with (cost_of p y').
    assert (forall A, total (fun _ : nat => 1) (seq 0 (length (A : matrix))) = INR (length A)) as HINR.
    { intros A. rewrite <- (seq_length (length A) 0) at 2. generalize (seq 0 (length A)) as l. induction l as [|x l IH]; [auto|].
      change (total (fun _ : nat => 1) (x :: l)) with (1 + total (fun _ : nat => 1) l). rewrite IH. cbn [length]. rewrite S_INR. lra. }
    unfold inequalities, squares. rewrite <- total_minus.
    assert (forall f, 1 / (ism * ism) * total f (seq 0 (length (p_eqs p))) / (bs * cs) = total (fun i => 1 / (ism * ism) * f i / (bs * cs)) (seq 0 (length (p_eqs p)))) as HSC.
    { intros f. unfold Rdiv. rewrite <- total_scale, <- total_scale_r. auto. }
    rewrite HSC. clear HSC. unfold dual_value.
    match goal with |- ?l = _ => assert (l = total (fun i => (match nth_error (p_eqs p) i with
                  | Some co => match ct_data co with
                               | CLinear _ A b => total (fun k => nth k b 0 * nth k (X i) 0) (seq 0 (length A))
                               | CSoc m _ b => total (fun k => nth k b 0 * nth k (X i) 0) (seq 0 (m + 1))
                               | CHerm h m _ C => herm_inner h m (component C) (listed_matrix m (X i))
                               | _ => 0
                               end
                  | None => 0
                  end) + / s * paired p y' e cs y st3 D [] i) (seq 0 (length (p_eqs p)))) as -> end.
    { rewrite total_plus, total_scale, HT. fold ism. assert (forall x, / s * - (ism * bs * (0 - x)) = x) as -> by (intros x; unfold s; field; lra). apply Rplus_comm. }
    apply total_ext. intros i Hi. apply in_seq in Hi. destruct (nth_error (p_eqs p) i) as [co|] eqn:Eco; [|apply nth_error_None in Eco; lia].
    destruct (proj1 HL i co Eco) as [(cols & A & b & Ed)|[(m & A & b & Ed)|(h & m & As & C & Ed)]]; rewrite Ed.
    + rewrite (paired_linear _ _ _ _ _ _ _ _ _ _ _ _ _ _ _ _ _ _ _ _ _ _ F HR HO Hmu [] i co cols A b Eco Ed).
      rewrite <- total_scale, <- total_plus. destruct (HROW i co cols A b Eco Ed) as (R1 & R2 & R3). rewrite R2.
      rewrite <- (HINR A), <- total_minus. rewrite <- (total_scale _ (1 / (ism * ism))). unfold Rdiv. rewrite <- (total_scale_r _ (/ (bs * cs))). apply total_ext. intros k0 Hk. apply in_seq in Hk.
      destruct (R3 k0 ltac:(lia)) as (_ & _ & R4). unfold Rdiv in R4 |- *. rewrite <- R4. unfold slack_of.
      fold V. rewrite HVX.
      assert (row_value (nth k0 A []) (nth i (p_cliques p) []) [] = 0) as ->. { unfold row_value. apply total_zero. intros v _. destruct (nth v (nth i (p_cliques p) []) 0%nat); cbn; ring. }
      field. lra.
    + destruct (HCONE i co m A b Eco Ed) as (R1 & R2 & _ & R3). rewrite R2, <- R3.
      rewrite (paired_cone _ _ _ _ _ _ _ _ _ _ _ _ _ _ _ _ _ _ _ _ _ _ F HO Hmu [] i co m A b Eco Ed).
      rewrite <- total_scale, <- total_plus. apply total_ext. intros k0 _. fold V. rewrite HVX.
      assert (cone_slack A b (nth i (p_cliques p) []) [] k0 = nth k0 b 0) as ->.
      { unfold cone_slack, column_value. rewrite total_zero; [ring|]. intros v _. destruct (nth v (nth i (p_cliques p) []) 0%nat); cbn; ring. }
      field. lra.
    + destruct (HMAT i co h m As C Eco Ed) as (R1 & _ & R3 & _). unfold square_sum in R3. rewrite <- R3.
      rewrite (paired_matrix _ _ _ _ _ _ _ _ _ _ _ _ _ _ _ _ _ _ _ _ _ _ F HO Hmu [] i co h m As C Eco Ed).
      assert (forall W, herm_inner h m W (listed_matrix m (V i)) = s * herm_inner h m W (listed_matrix m (X i))) as HVI.
      { intros W. rewrite herm_inner_comm, (herm_inner_multiple h m (listed_matrix m (X i)) (listed_matrix m (V i)) W s), herm_inner_comm; auto.
        intros t r0 c0 _ _ _. unfold listed_matrix. apply HVX. }
      fold V. rewrite !HVI.
      assert (herm_inner h m (herm_slack As C (nth i (p_cliques p) []) []) (listed_matrix m (X i)) = herm_inner h m (component C) (listed_matrix m (X i))) as ->.
      { apply herm_inner_ext. intros t r0 c0 _ _ _. unfold herm_slack. rewrite total_zero; [ring|]. intros v _. destruct (nth v (nth i (p_cliques p) []) 0%nat); cbn; ring. }
      field. lra.
Qed.

Lemma outcome_gap nf p n c r y' e bs cs : handed_back nf p n c r y' e -> scalings (rt_prog _ r) (rt_num _ r) bs cs ->
  rectangular p -> on_costs p -> linear_only p ->
  exists X D,
    (forall u, (u < SizeOfKKTSystem p)%nat -> gradient p X [] 0 u = - nth u (p_cost p) 0) /\
    (forall i co cols A b, nth_error (p_eqs p) i = Some co -> ct_data co = CLinear cols A b ->
      length (X i) = length A /\ length (nth i D []) = length A /\
      forall k, (k < length A)%nat ->
        let d := nth k (nth i D []) 0 in
        Rabs d <= en_dinf e /\
        (exists w, 0 < w /\ nth k (X i) 0 = w * (1 + d)) /\
        slack_of A b (nth i (p_cliques p) []) y' k * nth k (X i) 0 = 1 / (en_ism e * en_ism e) * (1 - d * d) / (bs * cs)) /\
    length D = length (p_eqs p) /\
    linear_cost p y' + dual_value p X = 1 / (en_ism e * en_ism e) * (inequalities p - total (fun d => vdot d d) D) / (bs * cs).
Proof.
  intros H HS HR HO HL.
  destruct (outcome_conic_gap nf p n c r y' e bs cs H HS HR HO (linear_conic _ HL)) as (X & D & H1 & H2 & _ & _ & H3 & H4).
  exists X, D. split; auto. split; auto. split; auto. rewrite H4.
  assert (squares p D = total (fun d => vdot d d) D) as ->; [|reflexivity].
  transitivity (total (fun i => vdot (nth i D []) (nth i D [])) (seq 0 (length (p_eqs p)))).
  - unfold squares. apply total_ext. intros i Hi. apply in_seq in Hi. destruct (nth_error (p_eqs p) i) as [co|] eqn:E; [|apply nth_error_None in E; lia].
    destruct (proj1 HL i co E) as (cols & A & b & ->). rewrite vdot_total. reflexivity.
  - rewrite <- H3. clear. induction D as [|d D IH]; [auto|]. cbn [length seq].
    change (total (fun d0 => vdot d0 d0) (d :: D)) with (vdot d d + total (fun d0 => vdot d0 d0) D). rewrite <- IH.
    change (total (fun i => vdot (nth i (d :: D) []) (nth i (d :: D) [])) (0%nat :: seq 1 (length D))) with
      (vdot d d + total (fun i => vdot (nth i (d :: D) []) (nth i (d :: D) [])) (seq 1 (length D))).
    f_equal. rewrite <- seq_shift. rewrite total_map. auto.
Qed.

(** ** Scalings of a cold start *)

Lemma Solve_same_area B p n n' c : starts p c -> reinitialises p c -> nm_bk n = nm_bk n' -> Solve B p n c = Solve B p n' c.
Proof.
  intros Hst Hre Hn. apply starts_iff in Hst as [H1 H2]. unfold Solve. rewrite H1. cbn [negb].
  destruct (Nat.eqb_spec (NumberOfConstraints p) 0) as [E|_]; [lia|].
  assert (forall p2, Initialize_numeric B (set_status p (mkStatus false (st_num_iterations (p_status p)) false false)) p2 (initialization_mode c =? 0)%Z (Z.to_nat (max_iterations c)) n =
    Initialize_numeric B (set_status p (mkStatus false (st_num_iterations (p_status p)) false false)) p2 (initialization_mode c =? 0)%Z (Z.to_nat (max_iterations c)) n') as HE.
  { intros p2. unfold Initialize_numeric. cbn [set_status p_init].
    assert (negb (p_init p) || (initialization_mode c =? 0)%Z = true) as ->; [|rewrite Hn; auto].
    destruct Hre as [->| ->]; auto. cbn. apply orb_true_r. }
  destruct (Initialize _ _ _) as [p2| | |]; cbn [bind]; auto. rewrite HE. auto.
Qed.

Lemma unit_scalings nf p n c r y' e bs cs : handed_back nf p n c r y' e -> initialization_mode c = 0%Z -> enable_rescaling c = 0%Z ->
  scalings (rt_prog _ r) (rt_num _ r) bs cs -> bs = 1 /\ cs = 1.
Proof.
  intros H Hc Hr HS. set (iters := mode_of nf c) in *.
  pose proof (hb_solve _ _ _ _ _ _ _ H) as Hs. unfold ConexSolve in Hs. fold iters in Hs.
  pose proof (hb_starts _ _ _ _ _ _ _ H) as Hst. assert (reinitialises p c) as Hre by (right; auto).
  set (n' := mkNum (nm_bk n) (match p_stats p with Some ss => repeat None (2 * ss_max_iter ss + 2)%nat | None => [] end)).
  rewrite (Solve_same_area (conex iters nf) p n n' c Hst Hre eq_refl) in Hs.
  pose proof Hst as Hst2. apply starts_iff in Hst2 as [H1 H2].
  destruct (run_area (conex iters nf) p n' c (Returned (conex iters nf) r) H1 H2) as (p2 & ss & r0 & s & Ex & Es & Ei & El & Ea & Hfit & (st & k & Ep) & Hlen & _ & Har); auto.
  { unfold sized, n'. cbn [nm_area]. destruct (p_stats p); auto. apply repeat_length. }
  injection Ex as <-.
  destruct (initial_cold (conex iters nf) p n' c Hc) as [I1 I2].
  assert (ss_max_iter ss = Z.to_nat (max_iterations c)) as EM.
  { destruct (Initialize_fields _ _ _ _ Ei) as (_ & _ & _ & _ & _ & _ & _ & _ & F). rewrite Hc in F. cbn [Z.eqb] in F. rewrite orb_true_r in F.
    destruct F as (F & _). rewrite Es in F. injection F as ->. auto. }
  assert (exists k0, p_stats (rt_prog (conex iters nf) r) = Some (mkStats (ss_max_iter ss) k0)) as (k0 & Ek).
  { destruct Ep as [Ep|Ep]; rewrite Ep; cbn [set_status p_stats]; rewrite (set_num_iter_stats p2 _ ss Es); eauto. }
  destruct HS as (ss' & S1 & S2 & S3). rewrite Ek in S1. injection S1 as <-. cbn [ss_max_iter] in S2, S3. unfold cell_is in S2, S3.
  rewrite EM in *. set (M := Z.to_nat (max_iterations c)) in *.
  assert (nth_error (area (conex iters nf) s) (b_cell M) = Some (Some 1) /\ nth_error (area (conex iters nf) s) (c_cell M) = Some (Some 1)) as [G1 G2].
  { destruct Har as [[Ha _]|(AQc & a0 & m0 & Fx1 & Fx2 & Fx3)].
    - rewrite Ha. auto.
    - apply rescaled_cells in Fx1; [|auto]. subst a0. destruct Fx3 as [Fx3 Fx4]. rewrite Fx3, Fx4. auto. }
  rewrite <- Ea in G1, G2. split.
  - exact (equal_cells _ _ _ _ S2 G1).
  - exact (equal_cells _ _ _ _ S3 G2).
Qed.
