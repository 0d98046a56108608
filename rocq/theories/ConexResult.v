(** Equations for the results of a solve (C34, C36, C48). *)
From Coq Require Import List Arith ZArith Reals Bool Lia Lra.
From Verif Require Import Base BaseFacts LayoutModel SupernodeModel TriWorkspaceModel AssemblerModel DenseModel BlockModel KktModel
  ProgramModel ApiModel DivergenceModel SolveModel LinearModel ConcreteBackend Spec_Linear Spec_Assembly RhsProofs Spec_Program Spec_Solve Spec_Conex
  SolveProofs SolveFacts SolveStats SolveLast Prop_Solve ConexFacts ConexStep ConexKkt ConexBlocks ConexNewton.
Import ListNotations.
Open Scope R_scope.

(** The last iteration of a solve that hands back a vector. *)
Record final_newton {nf : environment} (p : program) (c : config) (p2 : program) (M k : nat) (y' : list R) (e : entry) (st : cst) (bs cs : R)
  (q : list (cstate * schur)) (E : nat -> R) (y : list R) (st2 st3 st4 : cst) (norm nsq : R) (D : list (list R)) (area : list (option R))
  (cx by_ : R) : Prop := {
  fn_newton : newton (mode_of nf c) p2 st (cost_vector p2) (en_ism e) bs cs q E y st2 st3 norm nsq D;
  fn_ready : ready p2;
  fn_fields : p_eqs p2 = p_eqs p /\ p_cliques p2 = p_cliques p /\ p_duals p2 = p_duals p /\ p_cost p2 = p_cost p /\
              SizeOfKKTSystem p2 = SizeOfKKTSystem p /\ p_constraints p2 = p_constraints p /\ p_quadratic p2 = p_quadratic p;
  fn_dinf : en_dinf e = Rabs norm;
  fn_bs : nth_error area (b_cell M) = Some (Some bs);
  fn_cs : nth_error area (c_cell M) = Some (Some cs);
  fn_cell : nth_error area k = Some (Some (en_ism e));
  fn_y : y' = if mu_exceeds (en_ism e) (infeasibility_threshold c) then firstn (length (p_cost p)) y
              else map (fun x => x / en_ism e / cs) (firstn (length (p_cost p)) y);
  fn_by : by_ = vdot (cost_vector p2) y / (en_ism e * cs);
  fn_cx : cx = (2 * r_wc (ct_sys st2) + vdot (r_AQc (ct_sys st2)) y - en_ism e * r_cQc (ct_sys st2) * cs) / (en_ism e * bs);
  fn_take : exists (nf : environment) (abort : bool) (step : R),
    (if abort then Ok (SetIdentity (conex (mode_of nf c) nf) p2 st3)
     else TakeStep (conex (mode_of nf c) nf) p2 st3 (mkStep false (en_ism e) (en_ism e * cs) 1 step)) = Ok st4
}.
Arguments final_newton : clear implicits.

Lemma solve_newton nf p n c r y' : starts p c -> sound_start p n c -> limit_fits p c -> well_built p -> up_to_date p c ->
  ConexSolve nf p n c = Ok (Returned _ r) -> rt_y _ r = YVec y' ->
  exists p2 M k e t st bs cs q E y st2 st3 st4 norm nsq D cx by_ (s2 : lstate cst) reached,
    final_newton nf p c p2 M k y' e st bs cs q E y st2 st3 st4 norm nsq D (nm_area (rt_num _ r)) cx by_ /\
    rt_log _ r = e :: t /\ nm_bk (l_num s2) = st4 /\ nm_area (l_num s2) = nm_area (rt_num _ r) /\
    l_ism s2 = en_ism e /\ l_cx s2 = cx /\ l_by s2 = by_ /\ l_num_iter s2 = Some (S k) /\
    (p_quadratic p = false -> l_kkt_error s2 =
       let x := 1 / en_ism e * (1 / en_ism e) * (INR (Rank (conex (mode_of nf c) nf) p2) - sqrt (Rabs nsq) * sqrt (Rabs nsq)) / (bs * cs) in
       quotient (Rabs (cx - by_ - x)) x) /\
    finish (conex (mode_of nf c) nf) p2 c M (length (p_cost p2)) (cost_vector p2) s2 reached = Ok r /\
    p_stats (rt_prog _ r) = Some (mkStats M (Some (S k))) /\ estimated nf 1 p2 st3 norm.
Proof.
  intros Hst Hso Hlim HW HU H Hy. unfold ConexSolve in H.
  set (iters := mode_of nf c) in *.
  assert (quadratic_precondition p c = true /\ (0 < NumberOfConstraints p)%nat) as [H1 H2] by (apply Prop_Solve.starts_iff; auto).
  assert (positive_area (initial_area (conex iters nf) p n c)) as HA.
  { apply initial_positive. destruct Hso as [|[_ ?]]; auto. }
  destruct (Solve_last (conex iters nf) interior p n c r y') as (p2 & ss & k & s0 & s1 & s2 & e & t & reached & Ei & Es & L); auto.
  { intros p2 Ei. split; [apply interior_keeps|]. apply initial_interior. destruct Hso as [|[? _]]; auto. }
  pose proof (initialized_ready p c _ p2 HW HU Ei) as R.
  destruct (Initialize_fields _ _ _ _ Ei) as (F1 & F2 & F3 & F4 & F5 & F6 & F7 & F8 & F9).
  assert (SizeOfKKTSystem p2 = SizeOfKKTSystem p) as ES by (unfold SizeOfKKTSystem; rewrite F6, F8; reflexivity).
  pose proof (limit_enough _ _ _ _ Es Ei Hlim) as Hfit.
  destruct L as [Lk LI LA Ld Ls Ln LI2 LA2 Ll Lf].
  destruct (completed_newton iters nf p2 c _ _ _ _ _ _ _ R LI LA Ld)
    as (st0 & a0 & ismax & st2 & bs & cs & y & st3 & norm & nsq & D & q & E & N & Er & Eb & Ec & Ea & Hl & En & EY & Em & Ed & Ek & Eby & Ecx & Et & Ees & Ekk).
  destruct Ls as (S1 & S2 & S3 & S4 & S5 & S6 & _). pose proof Lf as Lf0.
  change (bk_state (conex iters nf)) with cst in *. unfold finish in Lf. change (bk_state (conex iters nf)) with cst in Lf. rewrite S1, S2, S3, Ln, En, EY, Em in Lf.
  apply bind_ok in Lf as (stf & _ & Lf). apply bind_ok in Lf as (cs' & Ec' & Lf).
  assert (nm_area (rt_num _ r) = nm_area (l_num s1)) as EA by (injection Lf as <-; reflexivity).
  assert (p_stats (rt_prog _ r) = Some (mkStats (ss_max_iter ss) (Some (S k)))) as EP.
  { injection Lf as <-. cbn [rt_prog set_status p_stats]. unfold set_num_iter. rewrite Es. reflexivity. }
  exists p2, (ss_max_iter ss), k, e, t, (nm_bk (l_num s0)), bs, cs, q, E, y, st2, st3, (nm_bk (l_num s1)), norm, nsq, D, (l_cx s1), (l_by s1), s2, reached.
  assert (nth_error (nm_area (l_num s1)) (b_cell (ss_max_iter ss)) = Some (Some bs)) as CB.
  { rewrite Ea, nth_error_upd_neq by (unfold b_cell; lia). apply get_cell_ok; auto. }
  assert (nth_error (nm_area (l_num s1)) (c_cell (ss_max_iter ss)) = Some (Some cs)) as CC.
  { rewrite Ea, nth_error_upd_neq by (unfold c_cell; lia). apply get_cell_ok; auto. }
  split.
  - constructor; auto.
    + repeat split; auto.
    + exact (eq_trans (f_equal (fun l => nth_error l _) EA) CB).
    + exact (eq_trans (f_equal (fun l => nth_error l _) EA) CC).
    + refine (eq_trans (f_equal (fun l => nth_error l _) EA) _). rewrite Ea, nth_error_upd_eq by auto. auto.
    + destruct (mu_exceeds (en_ism e) (infeasibility_threshold c)).
      * injection Lf as <-. cbn [rt_y] in Hy. rewrite F2 in Hy. cbn in Hy. congruence.
      * cbn [l_num nm_area] in Ec'. apply get_cell_ok in Ec'. rewrite CC in Ec'. injection Ec' as <-.
        injection Lf as <-. cbn [rt_y] in Hy. rewrite F2 in Hy. cbn in Hy. congruence.
    + exists nf. exact Et.
  - split; auto. rewrite Ln. split; auto. split; auto. split; [congruence|]. split; auto. split; auto. split; [congruence|].
    split; [|split; auto]. intros Hq. rewrite S6. apply Ekk. rewrite F1. cbn. auto.
Qed.

(** ** Positions *)
Lemma placed_out c f u : ~ In u c -> placed c f u = 0.
Proof.
  intros H. unfold placed. apply total_zero. intros a Ha. apply in_seq in Ha.
  destruct (Nat.eqb_spec (nth a c 0%nat) u) as [E|]; auto. destruct H. rewrite <- E. apply nth_In. lia.
Qed.
Lemma placed_at c f a : NoDup c -> (a < length c)%nat -> placed c f (nth a c 0%nat) = f a.
Proof.
  intros HN Ha. unfold placed.
  rewrite (total_ext _ (fun k => if (a =? k)%nat then f k else 0)).
  - apply (total_delta (length c) a f Ha).
  - intros k Hk. apply in_seq in Hk. destruct (Nat.eqb_spec a k) as [->|Hn]; [rewrite Nat.eqb_refl; auto|].
    destruct (Nat.eqb_spec (nth k c 0%nat) (nth a c 0%nat)) as [E|]; auto. destruct Hn. symmetry. apply (proj1 (NoDup_nth c 0%nat) HN); auto; lia.
Qed.

Lemma total_single n k (f : nat -> R) : (k < n)%nat -> (forall i, (i < n)%nat -> i <> k -> f i = 0) -> total f (seq 0 n) = f k.
Proof.
  intros Hk H. rewrite (total_ext _ (fun v => if (k =? v)%nat then f v else 0)); [apply total_delta; auto|].
  intros v Hv. apply in_seq in Hv. destruct (Nat.eqb_spec k v); auto. apply H; [lia|auto].
Qed.

Lemma multiplier_position p i co A b j : well_built p -> sized_equalities p -> nth_error (p_eqs p) i = Some co -> ct_data co = CEq A b ->
  (j < length A)%nat ->
  let cl := nth i (p_cliques p) [] in
  nth (length cl - length A + j) cl 0%nat = nth j (nth i (p_duals p) []) 0%nat /\ In (nth j (nth i (p_duals p) []) 0%nat) (nth i (p_duals p) []) /\
  (length cl - length A + j < length cl)%nat.
Proof.
  intros HW HE Hi Hd Hj. destruct (HE i co A b Hi Hd) as (_ & H2 & H3). cbv zeta.
  destruct (ad_dual _ _ (wb_admissible _ HW) i) as (pre & Ep).
  { rewrite (wb_lengths _ HW). eapply nth_error_lt; eauto. }
  rewrite Ep in *. rewrite app_length in *. rewrite app_nth2 by lia. repeat split; try lia.
  - f_equal. lia.
  - apply nth_In. lia.
Qed.

Lemma cost_vector_nth p u : nth u (cost_vector p) 0 = - nth u (p_cost p) 0.
Proof.
  unfold cost_vector. destruct (le_lt_dec (length (p_cost p)) u) as [H|H].
  - rewrite app_nth2 by (rewrite map_length; auto). rewrite nth_repeat_any, (nth_overflow (p_cost p)) by auto. lra.
  - rewrite app_nth1 by (rewrite map_length; auto). rewrite (nth_map_lt _ _ _ 0 0) by auto. auto.
Qed.

Lemma nodup_clique p i : well_built p -> (i < length (p_eqs p))%nat -> NoDup (nth i (p_cliques p) []).
Proof. intros HW H. apply (ad_nodup _ _ (wb_admissible _ HW)). apply nth_In. rewrite (wb_lengths _ HW). auto. Qed.

(** The multiplier row of the system. *)
Lemma equality_row iters p st b ism bs cs q E y st2 st3 norm nsq D i co A rhs j :
  ready p -> rectangular p -> sized_equalities p -> newton iters p st b ism bs cs q E y st2 st3 norm nsq D ->
  (iters = 0%nat \/ (forall u, E u = 0)) -> (forall u, (length (p_cost p) <= u)%nat -> nth u b 0 = 0) ->
  nth_error (p_eqs p) i = Some co -> ct_data co = CEq A rhs -> (j < length A)%nat ->
  let u := nth j (nth i (p_duals p) []) 0%nat in
  row_value (nth j A []) (nth i (p_cliques p) []) y + E u * nth u y 0 = ism * cs * nth j rhs 0.
Proof.
  intros R HR HE N Hor Hb Hi Hd Hj u. pose proof (rd_built _ R) as HW.
  destruct (multiplier_position p i co A rhs j HW HE Hi Hd Hj) as (P1 & P2 & P3). fold u in P1, P2.
  pose proof (nth_error_lt _ _ _ Hi) as Hil.
  assert (u < SizeOfKKTSystem p)%nat as Hu.
  { apply (ready_range p (nth i (p_cliques p) [])); auto; [apply nth_in_cliques; auto|]. rewrite <- P1. apply nth_In. auto. }
  pose proof (newton_gradient _ _ _ _ _ _ _ _ _ _ _ _ _ _ _ R HR HE N Hor u Hu) as HG.
  unfold gradient in HG. rewrite (total_single _ i) in HG; auto.
  - rewrite <- P1 in HG at 1. rewrite placed_at in HG by (auto; apply nodup_clique; auto).
    unfold contribution in HG. rewrite Hi, Hd in HG. set (cl := nth i (p_cliques p) []) in *.
    replace (length cl - length A + j <? length cl - length A)%nat with false in HG by (symmetry; apply Nat.ltb_ge; lia).
    replace (length cl - length A + j - (length cl - length A))%nat with j in HG by lia.
    rewrite (Hb u) in HG by (apply (wb_multipliers _ HW i); auto). lra.
  - intros i' Hi' Hne. apply placed_out. intros HIn. apply Hne. symmetry. eapply (wb_private _ HW); eauto.
Qed.

(** ** C34 *)

Lemma nth_skip {A} (l : list A) m i d : nth i (skipn m l) d = nth (m + i) l d.
Proof. revert l. induction m as [|m IH]; intros [|x l]; cbn; auto. destruct i; auto. Qed.

Definition keeps_eq (st st' : cst) : Prop :=
  ct_fact st' = ct_fact st /\ forall i l, nth_error (ct_cons st) i = Some (SEq l) -> nth_error (ct_cons st') i = Some (SEq l).
Lemma keeps_eq_refl st : keeps_eq st st.
Proof. split; auto. Qed.
Lemma keeps_eq_trans a b c : keeps_eq a b -> keeps_eq b c -> keeps_eq a c.
Proof. intros [F1 G1] [F2 G2]. split; [congruence|auto]. Qed.
Lemma keeps_eq_set st i s s' : nth_error (ct_cons st) i = Some s -> (forall l, s <> SEq l) -> keeps_eq st (set_con st i s').
Proof.
  intros H Hs. split; auto. intros k l Hk. cbn. destruct (Nat.eq_dec i k) as [->|Hn]; [rewrite H in Hk; injection Hk as ->; destruct (Hs l); auto|].
  rewrite nth_error_upd_neq by auto. auto.
Qed.
Lemma identity_keeps_eq iters nf p st : keeps_eq st (SetIdentity (conex iters nf) p st).
Proof.
  unfold SetIdentity. cbn [conex bk_identity bk_state]. generalize (p_constraints p) as l. intros l. revert st.
  induction l as [|i l IH]; intros st; cbn; [apply keeps_eq_refl|].
  eapply keeps_eq_trans; [|apply IH]. unfold con_identity. destruct (get_con p st i) as [[c s]| | |] eqn:E; try apply keeps_eq_refl.
  apply get_con_ok in E as [_ E]. destruct (ct_data c); try apply keeps_eq_refl; destruct s; try apply keeps_eq_refl.
  - eapply keeps_eq_set; eauto; discriminate.
  - destruct (_ || _)%bool; [apply keeps_eq_refl|]. eapply keeps_eq_set; eauto; discriminate.
  - destruct (_ && _)%bool; [|apply keeps_eq_refl]. eapply keeps_eq_set; eauto; discriminate.
Qed.
Lemma take_keeps_eq iters nf p st o st' : TakeStep (conex iters nf) p st o = Ok st' -> keeps_eq st st'.
Proof.
  intros H. unfold TakeStep in H.
  apply (foldM_preserves _ (fun s : cst => keeps_eq st s)) in H; [exact H|apply keeps_eq_refl|].
  intros i s s1 _ Hs E. cbn in E. eapply keeps_eq_trans; [exact Hs|]. unfold con_take in E.
  apply bind_ok in E as ([c s2] & E1 & E). apply get_con_ok in E1 as [_ E1].
  destruct (ct_data c); destruct s2; try discriminate; try (injection E as <-; apply keeps_eq_refl).
  - apply bind_ok in E as (w' & _ & E). injection E as <-. eapply keeps_eq_set; eauto; discriminate.
  - apply bind_ok in E as (u & _ & E). apply bind_ok in E as (o' & _ & E). injection E as <-. eapply keeps_eq_set; eauto; discriminate.
  - apply bind_ok in E as (u & _ & E). apply bind_ok in E as (o' & _ & E). apply bind_ok in E as (o'' & _ & E). injection E as <-. eapply keeps_eq_set; eauto; discriminate.
Qed.

Lemma scaled_row {nf} p c p2 M k y' e st bs cs q E y st2 st3 st4 norm nsq D ar cx by_ a vars :
  final_newton nf p c p2 M k y' e st bs cs q E y st2 st3 st4 norm nsq D ar cx by_ ->
  1 / (en_ism e * en_ism e) <= infeasibility_threshold c -> (length a <= length vars)%nat ->
  (forall j, (j < length a)%nat -> (nth j vars 0%nat < length (p_cost p))%nat) ->
  (length (p_cost p) <= SizeOfKKTSystem p)%nat ->
  row_value a vars y' * (en_ism e * cs) = row_value a vars y.
Proof.
  intros F Hmu Hl Hv Hc. pose proof (fn_y _ _ _ _ _ _ _ _ _ _ _ _ _ _ _ _ _ _ _ _ _ _ F) as EY.
  pose proof (fn_newton _ _ _ _ _ _ _ _ _ _ _ _ _ _ _ _ _ _ _ _ _ _ F) as N.
  pose proof (fn_fields _ _ _ _ _ _ _ _ _ _ _ _ _ _ _ _ _ _ _ _ _ _ F) as (_ & _ & _ & _ & ES & _).
  destruct N as [_ N2 N3 N4 _ _ N7 _ _ _ _ _ _ _ _ _ _ _ _ _ _]. rewrite ES in N7.
  assert (mu_exceeds (en_ism e) (infeasibility_threshold c) = false) as Hm by (apply mu_exceeds_spec; split; [lra|auto]).
  rewrite Hm in EY. subst y'.
  assert (map (fun x => x / en_ism e / cs) (firstn (length (p_cost p)) y) = map (fun x => / (en_ism e * cs) * x) (firstn (length (p_cost p)) y)) as ->.
  { apply map_ext. intros x. field. lra. }
  rewrite row_value_scaled; auto.
  - field. lra.
  - intros j Hj. specialize (Hv j Hj). rewrite N7. split; auto. lia.
Qed.

Lemma cost_length {nf} p c p2 M k y' e st bs cs q E y st2 st3 st4 norm nsq D ar cx by_ :
  final_newton nf p c p2 M k y' e st bs cs q E y st2 st3 st4 norm nsq D ar cx by_ -> (length (p_cost p) <= SizeOfKKTSystem p)%nat.
Proof.
  intros F. pose proof (fn_newton _ _ _ _ _ _ _ _ _ _ _ _ _ _ _ _ _ _ _ _ _ _ F) as N.
  pose proof (fn_fields _ _ _ _ _ _ _ _ _ _ _ _ _ _ _ _ _ _ _ _ _ _ F) as (_ & _ & _ & EC & ES & _).
  pose proof (nw_b _ _ _ _ _ _ _ _ _ _ _ _ _ _ _ N) as HB. unfold cost_vector in HB. rewrite app_length, map_length, EC, ES in HB. lia.
Qed.

Lemma mcols_row A j : has_cols (mcols A) A -> (j < length A)%nat -> length (nth j A []) = mcols A.
Proof. intros H Hj. unfold has_cols in H. rewrite Forall_forall in H. apply H. apply nth_In. auto. Qed.

Lemma on_costs_eq p i co A b : on_costs p -> sized_equalities p -> nth_error (p_eqs p) i = Some co -> ct_data co = CEq A b ->
  forall a, (a < length (nth i (p_cliques p) []) - length A)%nat -> (nth a (nth i (p_cliques p) []) 0%nat < length (p_cost p))%nat.
Proof.
  intros HO HE Hi Hd a Ha. specialize (HO i co Hi). rewrite Hd in HO. rewrite Forall_forall in HO.
  set (cl := nth i (p_cliques p) []) in *. rewrite <- (nth_firstn_lt cl (length cl - length A) a 0%nat) by auto. apply HO. apply nth_In.
  rewrite firstn_length. lia.
Qed.

Lemma final_equality {nf} p c p2 M k y' e st bs cs q E y st2 st3 st4 norm nsq D ar cx by_ i co A b j :
  final_newton nf p c p2 M k y' e st bs cs q E y st2 st3 st4 norm nsq D ar cx by_ ->
  rectangular p -> sized_equalities p -> on_costs p ->
  1 / (en_ism e * en_ism e) <= infeasibility_threshold c ->
  (mode_of nf c = Refine 0 \/ (forall u, E u = 0)) ->
  nth_error (p_eqs p) i = Some co -> ct_data co = CEq A b -> (j < length A)%nat ->
  let u := nth j (nth i (p_duals p) []) 0%nat in
  row_value (nth j A []) (nth i (p_cliques p) []) y' * (en_ism e * cs) + E u * nth u y 0 = en_ism e * cs * nth j b 0.
Proof.
  intros F HR HE HO Hmu Hor Hi Hd Hj u.
  pose proof (fn_newton _ _ _ _ _ _ _ _ _ _ _ _ _ _ _ _ _ _ _ _ _ _ F) as N.
  pose proof (fn_fields _ _ _ _ _ _ _ _ _ _ _ _ _ _ _ _ _ _ _ _ _ _ F) as (F1 & F2 & F3 & F4 & F5 & F6 & F7).
  pose proof (fn_ready _ _ _ _ _ _ _ _ _ _ _ _ _ _ _ _ _ _ _ _ _ _ F) as R.
  destruct (HE i co A b Hi Hd) as (H1 & H2 & H3).
  rewrite (scaled_row _ _ _ _ _ _ _ _ _ _ _ _ _ _ _ _ _ _ _ _ _ _ (nth j A []) (nth i (p_cliques p) []) F Hmu).
  - unfold u. rewrite <- F2, <- F3.
    apply (equality_row (mode_of nf c) p2 st (cost_vector p2) (en_ism e) bs cs q E y st2 st3 norm nsq D i co A b j); auto.
    + unfold rectangular. rewrite F1. auto.
    + unfold sized_equalities. rewrite F1, F2, F3. auto.
    + intros v Hv. rewrite cost_vector_nth, nth_overflow by auto. lra.
    + rewrite F1. auto.
  - rewrite (mcols_row A j) by auto. lia.
  - intros a Ha. rewrite (mcols_row A j) in Ha by auto. apply (on_costs_eq p i co A b); auto. lia.
  - eapply cost_length; eauto.
Qed.

Lemma exact_final {nf} p c p2 M k y' e st bs cs q E y st2 st3 st4 norm nsq D ar cx by_ :
  final_newton nf p c p2 M k y' e st bs cs q E y st2 st3 st4 norm nsq D ar cx by_ -> exact_pivots p st4 -> forall u, E u = 0.
Proof.
  intros F HX.
  pose proof (fn_newton _ _ _ _ _ _ _ _ _ _ _ _ _ _ _ _ _ _ _ _ _ _ F) as N.
  pose proof (fn_fields _ _ _ _ _ _ _ _ _ _ _ _ _ _ _ _ _ _ _ _ _ _ F) as (F1 & F2 & F3 & F4 & F5 & F6 & F7).
  destruct (fn_take _ _ _ _ _ _ _ _ _ _ _ _ _ _ _ _ _ _ _ _ _ _ F) as (nf0 & ab & stp & Et).
  assert (keeps_eq st3 st4) as [K _].
  { destruct ab; [injection Et as <-; apply identity_keeps_eq|]. eapply take_keeps_eq; eauto. }
  destruct HX as [HX|HX].
  - apply (nw_plain _ _ _ _ _ _ _ _ _ _ _ _ _ _ _ N). unfold no_multipliers. rewrite F3. auto.
  - apply (nw_pivots _ _ _ _ _ _ _ _ _ _ _ _ _ _ _ N). unfold pivots_large. rewrite F2, F3, <- K. exact HX.
Qed.

Lemma final_multipliers {nf} p c p2 M k y' e st bs cs q E y st2 st3 st4 norm nsq D ar cx by_ i co A b :
  final_newton nf p c p2 M k y' e st bs cs q E y st2 st3 st4 norm nsq D ar cx by_ -> sized_equalities p ->
  nth_error (p_eqs p) i = Some co -> ct_data co = CEq A b ->
  exists l, nth_error (ct_cons st4) i = Some (SEq l) /\ length l = length A /\
    forall j, (j < length A)%nat -> nth j l 0 = nth (nth j (nth i (p_duals p) []) 0%nat) y 0.
Proof.
  intros F HE Hi Hd.
  pose proof (fn_newton _ _ _ _ _ _ _ _ _ _ _ _ _ _ _ _ _ _ _ _ _ _ F) as N.
  pose proof (fn_fields _ _ _ _ _ _ _ _ _ _ _ _ _ _ _ _ _ _ _ _ _ _ F) as (F1 & F2 & F3 & F4 & F5 & F6 & F7).
  pose proof (fn_ready _ _ _ _ _ _ _ _ _ _ _ _ _ _ _ _ _ _ _ _ _ _ F) as R.
  destruct (fn_take _ _ _ _ _ _ _ _ _ _ _ _ _ _ _ _ _ _ _ _ _ _ F) as (nf0 & ab & stp & Et).
  assert (keeps_eq st3 st4) as [_ K].
  { destruct ab; [injection Et as <-; apply identity_keeps_eq|]. eapply take_keeps_eq; eauto. }
  pose proof (nth_error_lt _ _ _ Hi) as Hil.
  destruct (nw_step _ _ _ _ _ _ _ _ _ _ _ _ _ _ _ N i ltac:(rewrite F1; auto)) as (co' & s & s' & cl & z & T1 & T2 & T3 & T4 & T5 & T6).
  rewrite F1, Hi in T1. injection T1 as <-. rewrite Hd in T6. destruct s; try tauto. destruct s'; try tauto.
  destruct T6 as (_ & L1 & L2). exists lambda0. split; [auto|].
  assert (sized_equalities p2) as HE2 by (unfold sized_equalities; rewrite F1, F2, F3; auto).
  assert (nth_error (p_eqs p2) i = Some co) as Hi2 by (rewrite F1; auto).
  destruct (HE i co A b Hi Hd) as (H1 & H2 & H3).
  destruct (nw_blocks _ _ _ _ _ _ _ _ _ _ _ _ _ _ _ N) as [_ NB]. destruct (NB i co Hi2) as (s0 & _ & Ec).
  unfold con_schur in Ec. rewrite Hd in Ec. destruct s0; try discriminate. apply bind_ok in Ec as (q' & Eq & _).
  unfold equality_schur in Eq. destruct ((_ || _) || _) eqn:Eb; [discriminate|]. apply orb_false_iff in Eb as [_ Eb]. apply negb_false_iff, Nat.eqb_eq in Eb.
  destruct (Vars_ok _ _ _ T5) as (V1 & V2). rewrite F2 in T4. pose proof (nth_error_nth_eq _ _ _ [] T4) as Ecl.
  split. { rewrite L2, skipn_length. lia. }
  intros j Hj. destruct (multiplier_position p2 i co A b j (rd_built _ R) HE2 Hi2 Hd Hj) as (P1 & P2 & P3).
  cbv zeta in P1, P3. rewrite F2, F3, Ecl in *.
  rewrite L2, nth_skip. rewrite Eb, V1. rewrite <- P1. apply V2. lia.
Qed.

(** ** C36 *)

(** What the affine preparation does to constraint [i]. *)
Definition con_affine (p : program) (st st' : cst) (y : list R) (i : nat) : Prop :=
  exists c s s' clique z,
    nth_error (p_eqs p) i = Some c /\ nth_error (ct_cons st) i = Some s /\ nth_error (ct_cons st') i = Some s' /\
    nth_error (p_cliques p) i = Some clique /\ Vars y clique = Ok z /\
    match ct_data c, s, s' with
    | CLinear cols A b, SLinear w, SLinear w' =>
        exists W W', lw_W w = Some W /\ lw_W w' = Some W' /\ length W = length A /\ length W' = length A /\ (cols <= length z)%nat /\
          forall k, (k < length A)%nat -> nth k W' 0 = nth k W 0 + nth k W 0 * nth k W 0 * vdot (nth k A []) (firstn cols z)
    | CLinear _ _ _, _, _ => False
    | _, _, _ => True
    end.

Lemma con_prepare_affine env p st i o y clique z st' r : op_affine o = true ->
  nth_error (p_cliques p) i = Some clique -> Vars y clique = Ok z ->
  con_prepare env p st i o z = Ok (st', r) ->
  (forall k, k <> i -> nth_error (ct_cons st') k = nth_error (ct_cons st) k) /\ con_affine p st st' y i.
Proof.
  intros Ho Hc Hz H. unfold con_prepare in H. apply bind_ok in H as ([c s] & E & H). apply get_con_ok in E as [E1 E2].
  pose proof (nth_error_lt _ _ _ E2) as Hl.
  destruct (ct_data c) as [cols A b|m A b|h n As C| | | |A b] eqn:Ed; destruct s as [w|l| |w|w|]; try discriminate.
  - apply bind_ok in H as ([w' nq] & E & H). injection H as <- _.
    split. { intros k Hk. cbn. apply nth_error_upd_neq. auto. }
    exists c, (SLinear w), (SLinear w'), clique, z. cbn [set_con ct_cons]. rewrite nth_error_upd_eq by auto.
    repeat split; auto. rewrite Ed. unfold linear_prepare in E. rewrite Ho in E.
    apply bind_ok in E as (ms & Es & E). apply bind_ok in E as (w2 & Et & E). injection E as <- _.
    unfold linear_take in Et. rewrite Ho in Et. unfold AffineUpdate in Et. cbn [lw_W lw_t1 written bind] in Et.
    apply bind_ok in Et as (W & EW & Et). apply written_ok in EW. apply bind_ok in Et as (SW & E3 & Et).
    apply bind_ok in Et as (u & E4 & Et). apply bind_ok in Et as (W' & E5 & Et). injection Et as <-.
    apply slack_ok in Es as (S1 & S2 & S3 & S4). apply zip_ok in E3 as (Z1 & Z2 & Z3). apply zip_ok in E4 as (Y1 & Y2 & Y3).
    apply zip_ok in E5 as (X1 & X2 & X3). exists W, W'. cbn [lw_W]. repeat split; auto; try lia.
    intros k Hk. rewrite X3, Y3, Z3, S4 by lia. ring.
  - apply bind_ok in H as (o1 & _ & H). apply bind_ok in H as ([o2 r2] & _ & H). injection H as <- _.
    split. { intros k Hk. cbn. apply nth_error_upd_neq. auto. }
    exists c, (SSoc w), (soc_memory o2), clique, z. cbn [set_con ct_cons]. rewrite nth_error_upd_eq by auto. rewrite Ed. repeat split; auto.
  - apply bind_ok in H as (o1 & _ & H).
    assert (exists q' b, ct_cons st' = ct_cons (set_con st i (herm_memory h q' b))) as (q' & bb & EC).
    { destruct (JordanModel.HPrepareStep _ _ _ _) as [q' [nsq|]]; injection H as <- _; do 2 eexists; reflexivity. }
    split. { intros k Hk. rewrite EC. cbn. apply nth_error_upd_neq. auto. }
    exists c, (SHerm w), (herm_memory h q' bb), clique, z. rewrite EC. cbn [set_con ct_cons]. rewrite nth_error_upd_eq by auto. rewrite Ed. repeat split; auto.
  - injection H as <- _. split; auto. exists c, SQuad, SQuad, clique, z. rewrite Ed. repeat split; auto.
  - apply bind_ok in H as (l' & E & H). injection H as <- _. split. { intros k Hk. cbn. apply nth_error_upd_neq. auto. }
    exists c, (SEq l), (SEq l'), clique, z. cbn [set_con ct_cons]. rewrite nth_error_upd_eq by auto. rewrite Ed. repeat split; auto.
Qed.

Lemma con_affine_frame p st1 st1' st2 st2' y i : con_affine p st1 st2 y i ->
  nth_error (ct_cons st1') i = nth_error (ct_cons st1) i -> nth_error (ct_cons st2') i = nth_error (ct_cons st2) i -> con_affine p st1' st2' y i.
Proof. intros (c & s & s' & cl & z & H1 & H2 & H3 & H) E1 E2. exists c, s, s', cl, z. rewrite E1, E2. auto. Qed.

Lemma prepare_affine_each iters nf p st o y st' r : op_affine o = true ->
  PrepareStep (conex iters nf) p st o y = Ok (st', r) ->
  forall i, (i < NumberOfConstraints p)%nat -> con_affine p st st' y i.
Proof.
  intros Ho H. unfold PrepareStep in H.
  assert (forall N st' r,
    foldM (fun (acc : bk_state (conex iters nf) * (R * R)) i =>
             let '(st, (norminfd, normsqrd)) := acc in
             clique <- at_ (p_cliques p) i ;;
             z <- Vars y clique ;;
             '(st', (ni, ns)) <- bk_prepare (conex iters nf) p st i o z ;;
             Ok (st', ((if Rltb norminfd ni then ni else norminfd), normsqrd + ns)))
          (st, (-1, 0)) (seq 0 N) = Ok (st', r) ->
      (forall k, (N <= k)%nat -> nth_error (ct_cons st') k = nth_error (ct_cons st) k) /\
      forall i, (i < N)%nat -> con_affine p st st' y i) as G.
  { clear H st' r. intros N. induction N as [|N IH]; intros st' r H.
    - cbn in H. injection H as <- <-. split; auto. intros; lia.
    - rewrite seq_S, foldM_app in H. cbn [Nat.add] in H. apply bind_ok in H as ([st1 [n1 q1]] & E & H).
      destruct (IH _ _ E) as (D5 & D6). cbn [foldM] in H.
      apply bind_ok in H as (x & H & Hx). injection Hx as ->.
      apply bind_ok in H as (cl & Ecl & H). apply at_ok in Ecl. apply bind_ok in H as (z & Ez & H).
      apply bind_ok in H as ([st2 [ni ns]] & Ep & H). injection H as <- _.
      cbn [bk_prepare conex] in Ep.
      destruct (con_prepare_affine _ _ _ _ _ _ _ _ _ _ Ho Ecl Ez Ep) as (F1 & F2).
      split. { intros k Hk. rewrite F1 by lia. apply D5. lia. }
      intros i Hi. destruct (Nat.eq_dec i N) as [->|Hn].
      + apply (con_affine_frame p st1 st st2 st2 y N F2); auto. symmetry. apply D5. lia.
      + apply (con_affine_frame p st st st1 st2 y i); [apply D6; lia|auto|]. apply F1. auto. }
  destruct (G _ _ _ H) as (_ & D6). auto.
Qed.

(** Dual variables as stored. *)
Definition stored (st : cst) (i : nat) : list R :=
  match nth_error (ct_cons st) i with
  | Some (SLinear w) => match lw_W w with Some W => W | None => [] end
  | _ => []
  end.

Lemma affine_gradient iters nf p st st0 st1 b k bres y2 o st2 r : ready p -> rectangular p -> linear_only p ->
  con_assemble p st = Ok st0 -> con_factor iters p st0 = Ok (st1, true) -> op_affine o = true ->
  vminus (vscale k b) (r_AW (ct_sys st1)) = Ok bres -> con_solve_once p st1 bres = Ok y2 ->
  PrepareStep (conex iters nf) p st1 o y2 = Ok (st2, r) ->
  forall u, (u < SizeOfKKTSystem p)%nat -> gradient p (stored st2) [] 0 u = k * nth u b 0.
Proof.
  intros R HR [HL HD] Ea Ef Ho Eb Es Ep u Hu.
  destruct (assembled p _ st0 R Ea) as (q & Q1 & Q2 & Q3 & Q4 & Q5 & Q6 & Q7 & Q8 & Q9).
  destruct (solved_once _ _ _ _ _ _ Ef Es) as (mode & st1' & _ & Ef' & Es').
  destruct (solved_system mode p _ st0 q st1' R Ea Q1 Q9 Ef') as (E & S1 & S2 & S3 & _ & S4 & _).
  destruct (con_factor_core _ _ _ _ _ Ef) as [F1 F2]. rewrite F2 in Eb.
  destruct (S4 st1' bres y2 eq_refl Es') as (Y1 & Y2 & Y3). specialize (S2 HD). specialize (Y3 (or_intror S2) u Hu).
  rewrite S2, Rmult_0_l, Rplus_0_r in Y3. apply zip_ok in Eb as (Z1 & Z2 & Z3). rewrite Z3, vscale_nth in Y3 by lia.
  unfold matrix_of in Y3. rewrite row_times_blocks in Y3 by (intros c v; apply (ready_range p); auto).
  rewrite Q5 in Y3. rewrite (wb_lengths _ (rd_built _ R)) in Y3.
  match type of Y3 with ?x = _ - ?y => enough (gradient p (stored st2) [] 0 u = x + y) as -> by lra end. clear Y3.
  unfold gradient. rewrite <- total_plus. apply total_ext. intros i Hi. apply in_seq in Hi.
  rewrite <- placed_plus. apply placed_ext. intros a Ha.
  destruct Q1 as [L1 L2]. destruct (nth_error (p_eqs p) i) as [co|] eqn:Eco; [|apply nth_error_None in Eco; lia].
  destruct (L2 i co Eco) as (s & Es'' & Ec). pose proof (wb_vars _ (rd_built _ R) i co Eco) as HV.
  destruct (nth i q qdef) as [s' sc] eqn:Eq. cbn [snd].
  unfold contribution. rewrite Eco. destruct (HL i co Eco) as (cols & A & c & Ed). unfold con_schur in Ec. rewrite Ed in *.
  destruct s as [w| | | | |]; try discriminate.
  apply bind_ok in Ec as ([w' q'] & E1 & Ec). injection Ec as <- <-. pose proof (HR i co cols A c Eco Ed) as HCo.
  destruct (linear_schur_ok _ _ _ _ _ _ _ E1 HCo) as (W & G1 & G2 & G3 & G4 & G5 & G6 & G7 & G8 & _).
  rewrite (linear_block_times cols A W (nth i (p_cliques p) []) y2 (length (nth i (p_cliques p) [])) a (sc_G q')) by (auto; lia).
  rewrite G7, <- total_plus. apply total_ext. intros k' Hk. apply in_seq in Hk.
  destruct (prepare_affine_each iters nf p st1 o y2 st2 r Ho Ep i ltac:(unfold NumberOfConstraints; lia)) as (c0 & s2 & s3 & cl & z & T1 & T2 & T3 & T4 & T5 & T6).
  rewrite Eco in T1. injection T1 as <-. rewrite Ed in T6. rewrite (nth_error_nth_eq _ _ _ [] T4).
  rewrite F1, Q2, nth_error_map in T2. destruct (nth_error q i) as [qi|] eqn:Eqi; [|discriminate].
  rewrite (nth_error_nth_eq _ _ _ qdef Eqi) in Eq. subst qi. cbn in T2. injection T2 as <-.
  destruct s3 as [w3| | | | |]; try tauto.
  destruct T6 as (W2 & W3 & X1 & X2 & X3 & X4 & X5 & X6). rewrite G2 in X1. injection X1 as <-.
  unfold stored. rewrite T3, X2. rewrite X6 by lia.
  rewrite (slack_row cols _ cl y2 z); auto.
  - ring.
  - unfold has_cols in HCo. rewrite Forall_forall in HCo. apply HCo. apply nth_In. lia.
Qed.

Lemma solve_factored iters p st st1 ok r y : con_factor iters p st = Ok (st1, ok) -> con_solve_once p st1 r = Ok y -> ok = true.
Proof.
  unfold con_factor, con_solve_once, with_solver. destruct (p_solver p) as [[cl du]|]; [|discriminate].
  destruct (build cl du) as [[[d o] bs]| | |]; try discriminate. cbn [bind]. intros H1 H2.
  destruct iters as [iters|g]; apply bind_ok in H1 as (f & _ & H1); [|congruence].
  destruct f as [f|]; injection H1 as <- <-; auto. discriminate.
Qed.

Lemma vscale_vscale a b v : vscale a (vscale b v) = vscale (a * b) v.
Proof. unfold vscale. rewrite map_map. apply map_ext. intros. ring. Qed.

Lemma linear_conic p : linear_only p -> conic_only p.
Proof. intros [H1 H2]. split; auto. intros i co Hi. left. eauto. Qed.

Lemma gradient_scale p X X' y c k u : conic_only p -> (forall i j, nth j (X' i) 0 = k * nth j (X i) 0) ->
  gradient p X' y c u = k * gradient p X [] 0 u.
Proof.
  intros [HL _] H. unfold gradient. rewrite <- total_scale. apply total_ext. intros i Hi. apply in_seq in Hi.
  rewrite <- placed_scale. apply placed_ext. intros a _. unfold contribution.
  destruct (nth_error (p_eqs p) i) as [co|] eqn:E; [|lra]. destruct (HL i co E) as [(cols & A & b & ->)|[(n & A & b & ->)|(h & n & As & C & ->)]];
  unfold herm_inner; rewrite <- total_scale; apply total_ext; intros j _; [rewrite H; ring|rewrite H; ring|].
  cbv beta. rewrite <- total_scale. apply total_ext. intros r _. rewrite <- total_scale. apply total_ext. intros s _. unfold listed_matrix. rewrite H. ring.
Qed.

Lemma solve_bound B p n c r : starts p c -> reinitialises p c -> Solve B p n c = Ok (Returned B r) -> p_kkt (rt_prog B r) = seq 0 (length (p_eqs p)).
Proof.
  intros H Hr E. apply starts_iff in H as [H1 H2].
  apply Solve_refines in E as (o & E). unfold Solve_program in E. rewrite H1 in E. cbn [negb] in E.
  destruct (Nat.eqb_spec (NumberOfConstraints p) 0); [lia|]. apply bind_ok in E as (p2 & Ei & E). injection E as E _.
  destruct (Initialize_fields _ _ _ _ Ei) as (_ & _ & _ & F4 & F5 & F6 & _ & _ & F).
  match type of F with (if ?x then _ else _) => assert (x = true) as T end.
  { cbn. destruct Hr as [->| ->]; auto. apply orb_true_r. }
  rewrite T in F. destruct F as (_ & _ & _ & F1 & F2). rewrite <- E. cbn [set_status set_stats p_kkt]. rewrite F2. cbn. auto.
Qed.

Lemma dual_equation nf p n c r y' : starts p c -> sound_start p n c -> limit_fits p c -> well_built p -> up_to_date p c ->
  rectangular p -> linear_only p -> prepare_dual_variables c <> 0%Z ->
  ConexSolve nf p n c = Ok (Returned _ r) -> rt_y _ r = YVec y' ->
  exists X k, 0 < k /\ (st_primal_infeasible (p_status (rt_prog _ r)) = false -> k = 1) /\
    (forall i, (i < length (p_eqs p))%nat -> GetDualVariable (rt_prog _ r) (rt_num _ r) i = Ok (X i) /\
       (reinitialises p c -> GetDualVariableSize (rt_prog _ r) (Z.of_nat i) = Z.of_nat (length (X i)))) /\
    forall u, (u < SizeOfKKTSystem p)%nat -> gradient p X [] 0 u = k * - nth u (p_cost p) 0.
Proof.
  intros Hst Hso Hlim HW HU HR HLO Hd H Hy.
  destruct (solve_newton nf p n c r y' Hst Hso Hlim HW HU H Hy)
    as (p2 & M & k & e & t & st & bs & cs & q & E & y & st2 & st3 & st4 & norm & nsq & D & cx & by_ & s2 & reached & F & Hl & B1 & B2 & B3 & B4 & B5 & B6 & _ & Hf & Hs & _).
  set (iters := mode_of nf c) in *.
  pose proof (fn_newton _ _ _ _ _ _ _ _ _ _ _ _ _ _ _ _ _ _ _ _ _ _ F) as N.
  pose proof (fn_fields _ _ _ _ _ _ _ _ _ _ _ _ _ _ _ _ _ _ _ _ _ _ F) as (F1 & F2 & F3 & F4 & F5 & F6 & F7).
  pose proof (fn_ready _ _ _ _ _ _ _ _ _ _ _ _ _ _ _ _ _ _ _ _ _ _ F) as R.
  pose proof (fn_bs _ _ _ _ _ _ _ _ _ _ _ _ _ _ _ _ _ _ _ _ _ _ F) as Cb.
  pose proof (fn_cell _ _ _ _ _ _ _ _ _ _ _ _ _ _ _ _ _ _ _ _ _ _ F) as Ck.
  pose proof (nw_ism _ _ _ _ _ _ _ _ _ _ _ _ _ _ _ N) as Pi. pose proof (nw_bs _ _ _ _ _ _ _ _ _ _ _ _ _ _ _ N) as Pb.
  unfold finish in Hf. change (bk_state (conex iters nf)) with cst in Hf. rewrite B6 in Hf. apply bind_ok in Hf as (stf & Ef & Hf).
  apply bind_ok in Hf as (cs' & _ & Hf).
  assert (rt_num _ r = mkNum stf (nm_area (l_num s2))) as ER by (injection Hf as <-; reflexivity).
  assert (p_eqs (rt_prog _ r) = p_eqs p) as EE.
  { injection Hf as <-. cbn [rt_prog set_status p_eqs]. unfold set_num_iter. destruct (p_stats p2); cbn; auto. }
  clear Hf. apply Z.eqb_neq in Hd. rewrite Hd in Ef. cbn [negb] in Ef.
  apply bind_ok in Ef as (st0 & E0 & Ef). apply bind_ok in Ef as ([st1 ok] & E1 & Ef). apply bind_ok in Ef as (bs' & E2 & Ef).
  apply bind_ok in Ef as (bres & E3 & Ef). apply bind_ok in Ef as (y2 & E4 & Ef). apply bind_ok in Ef as ([st5 nn] & E5 & Ef). injection Ef as ->.
  cbn [conex bk_assemble bk_factor bk_sys bk_solve_once] in E0, E1, E3, E4.
  assert (ok = true) as -> by (eapply solve_factored; eauto).
  assert (nth_error (nm_area (l_num s2)) (b_cell M) = Some (Some bs)) as Cb' by exact (eq_trans (f_equal (fun a => nth_error a _) B2) Cb).
  assert (nth_error (nm_area (l_num s2)) k = Some (Some (en_ism e))) as Ck' by exact (eq_trans (f_equal (fun a => nth_error a _) B2) Ck).
  apply get_cell_ok in E2. change (bk_state (conex iters nf)) with cst in E2. rewrite Cb' in E2. injection E2 as <-.
  rewrite vscale_vscale, B3 in E3.
  assert (rectangular p2) as HR2 by (unfold rectangular; rewrite F1; auto).
  assert (linear_only p2) as HL2 by (unfold linear_only in *; rewrite F1, F3; auto).
  pose proof (affine_gradient iters nf p2 _ st0 st1 (cost_vector p2) (bs * en_ism e) bres y2 (mkStep true (l_ism s2) 0 0 (l_step s2)) stf nn R HR2 HL2 E0 E1 eq_refl E3 E4 E5) as HG.
  set (pi := st_primal_infeasible (p_status (rt_prog _ r))).
  set (s := en_ism e * bs). assert (0 < s) as Ps by (apply Rmult_lt_0_compat; auto).
  exists (fun i => if pi then stored stf i else map (fun x => x / s) (stored stf i)), (if pi then s else 1).
  split; [destruct pi; lra|]. split; [intros Hpi; rewrite Hpi; auto|]. split.
  - intros i Hi. unfold GetDualVariable, GetDualVariableSize. rewrite ER. unfold get_con. rewrite EE. cbn [nm_bk nm_area].
    unfold Zneg. rewrite (proj2 (Z.ltb_ge _ _)) by lia. rewrite Nat2Z.id.
    destruct (nth_error (p_eqs p) i) as [co|] eqn:Eco; [|apply nth_error_None in Eco; lia].
    destruct (prepare_affine_each iters nf p2 st1 (mkStep true (l_ism s2) 0 0 (l_step s2)) y2 stf nn eq_refl E5 i ltac:(unfold NumberOfConstraints; rewrite F1; lia)) as (c0 & s2' & s3 & cl & z & T1 & T2 & T3 & T4 & T5 & T6).
    rewrite F1, Eco in T1. injection T1 as <-. destruct (proj1 HLO i co Eco) as (cols & A & b & Ed). rewrite Ed in *.
    destruct s2' as [w2| | | | |]; try tauto. destruct s3 as [w3| | | | |]; try tauto.
    destruct T6 as (W & W' & X1 & X2 & X3 & X4 & _). cbn [bind]. rewrite T3. cbn [bind]. rewrite Ed. cbn [stored_dual]. unfold written. rewrite X2. cbn [bind].
    unfold stored. rewrite T3, X2. fold pi. split.
    2:{ intros HRe. rewrite (solve_bound _ _ _ _ _ Hst HRe H), seq_length. rewrite (proj2 (Nat.ltb_lt _ _) Hi). cbn [dual_variable_size]. destruct pi; rewrite ?map_length, X4; auto. }
    destruct pi; auto.
    rewrite Hs. cbn [ss_num_iter ss_max_iter].
    assert (get_cell (nm_area (l_num s2)) k = Ok (en_ism e)) as -> by (unfold get_cell, idx; rewrite Ck'; reflexivity).
    assert (get_cell (nm_area (l_num s2)) (b_cell M) = Ok bs) as -> by (unfold get_cell, idx; rewrite Cb'; reflexivity).
    cbn [bind]. fold s. destruct (Req0_spec s); [lra|]. auto.
  - intros u Hu. rewrite <- F5 in Hu. specialize (HG u Hu). rewrite cost_vector_nth, F4 in HG.
    assert (forall X, gradient p X [] 0 u = gradient p2 X [] 0 u) as EG.
    { intros X. unfold gradient, contribution. rewrite F1, F2. reflexivity. }
    rewrite (gradient_scale p (stored stf) _ [] 0 (if pi then 1 else / s) u (linear_conic _ HLO)).
    + rewrite EG, HG. destruct pi; unfold s; [ring|]. field. lra.
    + intros i j. destruct pi; [ring|]. destruct (le_lt_dec (length (stored stf i)) j) as [Hj|Hj].
      * rewrite !nth_overflow; auto; [ring|rewrite map_length; auto].
      * rewrite (nth_map_lt _ _ _ 0 0) by auto. unfold Rdiv. ring.
Qed.
