(** Proofs about objectives with a known dual solution (C67). *)
From Coq Require Import List Arith ZArith Reals Bool Lia Lra.
From Verif Require Import Base BaseFacts LayoutModel SupernodeModel TriWorkspaceModel AssemblerModel DenseModel BlockModel KktModel
  ProgramModel ApiModel DivergenceModel SolveModel LinearModel ConcreteBackend FeasibleModel Spec_Linear Spec_Assembly RhsProofs Spec_Program Spec_Solve Spec_Conex Spec_Feasible
  SymbolicFacts LinearFacts SolveProofs SolveFacts SolveStats SolveLast Prop_Solve ConexFacts ConexStep ConexKkt ConexBlocks ConexDefinite ConexResult ConexTotal ConexGap.
From Verif Require Import SocLinks.
From Verif Require Spec_Soc SocAlgebra SocProofs Spec_Hyper JordanModel JordanProofs JordanSteps HermBound HermLinks HermPairing LanczosFacts HyperFacts.
Import ListNotations.
Open Scope R_scope.

(** ** The identity *)
Definition at_identity (co : container) (s : cstate) : Prop :=
  match ct_data co, s with
  | CLinear _ A _, SLinear w => lw_W w = Some (repeat 1 (length A))
  | CEq _ _, SEq _ => True
  | CQuad _, SQuad => True
  | CSoc n _ _, SSoc w => sw_n w = n /\ sw_W w = Some (1, fun _ => 0)
  | CHerm h n _ _, SHerm w => w = mkHermWs h n (Some JordanModel.Identity) None false
  | _, _ => False
  end.

Lemma set_same st i s : nth_error (ct_cons st) i = Some s -> set_con st i s = st.
Proof.
  intros E. unfold set_con. destruct st as [cons mem f sys dr]. cbn in *. f_equal.
  revert i E. induction cons as [|a cons IHc]; intros [|i] H; cbn in *; try discriminate; [injection H as ->; auto|f_equal; eauto].
Qed.

Lemma identity_one iters p st i co s : nth_error (p_eqs p) i = Some co -> nth_error (ct_cons st) i = Some s -> consistent p -> classed co s ->
  exists s', bk_identity (conex iters some_env) p st i = set_con st i s' /\ classed co s' /\ at_identity co s'.
Proof.
  intros E1 E2 HC E4. cbn [bk_identity conex]. unfold con_identity, get_con. rewrite E1, E2. unfold classed in E4. unfold classed, at_identity.
  pose proof (HC i co E1) as HCi.
  destruct (ct_data co) as [cols A b|n A b|h n As C|Q|d1 d2 d3|d1 d2 d3 d4|A b] eqn:Ed; destruct s as [w|lam| |w|w|]; try tauto.
  - eexists. split; [reflexivity|]. split; auto.
  - destruct HCi as (C1 & _). destruct (Nat.eqb_spec n 0); [lia|]. rewrite E4, Nat.eqb_refl. cbn [orb negb].
    eexists. split; [reflexivity|]. cbn. auto.
  - destruct HCi as (_ & C1 & _). destruct E4 as [E4 E5]. rewrite E4, E5, !Nat.eqb_refl. cbn [andb].
    assert (associative_algebra h = true) as ->.
    { apply HermLinks.algebra_ok. destruct C1 as [->|[->| ->]]; [exists 0%nat|exists 1%nat|exists 2%nat]; auto. }
    eexists. split; [reflexivity|]. cbn. auto.
  - exists SQuad. rewrite set_same by auto. auto.
  - exists (SEq lam). rewrite set_same by auto. auto.
Qed.

Lemma identity_all iters nf p st : consistent p -> listed p -> shaped classed p st -> shaped at_identity p (SetIdentity (conex iters nf) p st).
Proof.
  intros HC HL G. unfold SetIdentity. cbn [bk_identity conex bk_state].
  assert (forall l st, shaped classed p st -> (forall i, In i l -> (i < length (p_eqs p))%nat) ->
    let st' := fold_left (fun st i => con_identity p st i) l st in
    shaped classed p st' /\ forall i co s, nth_error (p_eqs p) i = Some co -> nth_error (ct_cons st') i = Some s ->
      (In i l \/ (exists s0, nth_error (ct_cons st) i = Some s0 /\ at_identity co s0)) -> at_identity co s) as H.
  { clear st G. induction l as [|i l IH]; intros st G Hl; cbn [fold_left].
    - split; auto. intros i co s H1 H2 [[]|(s0 & H3 & H4)]; congruence.
    - destruct (shaped_get _ _ _ i G (Hl i (or_introl eq_refl))) as (co & s & E1 & E2 & E3 & E4).
      destruct (identity_one iters p st i co s E1 E2 HC E4) as (s' & Es & C1 & C2). cbn [bk_identity conex] in Es. rewrite Es.
      assert (shaped classed p (set_con st i s')) as G1 by (eapply shaped_set; eauto).
      destruct (IH (set_con st i s') G1 ltac:(intros; apply Hl; right; auto)) as [I1 I2]. split; auto.
      intros k co' s2 K1 K2 K3. eapply I2; eauto.
      destruct (Nat.eq_dec i k) as [->|Hn].
      + right. exists s'. cbn. rewrite nth_error_upd_eq by (rewrite (proj1 G); eapply nth_error_lt; eauto). split; auto. congruence.
      + destruct K3 as [[K3|K3]|(s0 & K3 & K4)]; [congruence|auto|]. right. exists s0. cbn. rewrite nth_error_upd_neq by auto. auto. }
  destruct (H (p_constraints p) st G (proj1 HL)) as [H1 H2]. cbv zeta in *.
  split; [apply H1|]. intros i co s Hi Hs. pose proof (H2 i co s Hi Hs) as H3. pose proof (proj2 H1 i co s Hi Hs) as H4.
  destruct (ct_data co) as [cols A b|n A b|h n As C|Q|d1 d2 d3|d1 d2 d3 d4|A b] eqn:Ed.
  - apply H3. left. eapply (proj1 (proj2 HL)); eauto.
  - apply H3. left. eapply (proj1 (proj2 (proj2 HL))); eauto.
  - apply H3. left. eapply (proj2 (proj2 (proj2 HL))); eauto.
  - unfold classed, at_identity in *. rewrite Ed in *. auto.
  - unfold classed in H4. rewrite Ed in H4. contradiction.
  - unfold classed in H4. rewrite Ed in H4. contradiction.
  - unfold classed, at_identity in *. rewrite Ed in *. auto.
Qed.

Lemma identity_shape p i co s : consistent p -> nth_error (p_eqs p) i = Some co -> at_identity co s -> shape_ok co s.
Proof.
  intros HC Hi H. pose proof (HC i co Hi) as HCi. unfold at_identity, shape_ok in *.
  destruct (ct_data co) as [cols A b|n A b|h n As C|Q|d1 d2 d3|d1 d2 d3 d4|A b]; destruct s as [w|lam| |w|w|]; try tauto.
  - eexists. split; [exact H|]. split; [apply repeat_length|]. apply Forall_forall. intros x Hx. apply repeat_spec in Hx. lra.
  - destruct H as [H1 H2]. split; auto. eexists. split; [exact H2|]. apply one_interior.
  - subst w. cbn [hw_h hw_n hw_W]. do 2 (split; [auto|]). split; [eauto|]. destruct HCi as (_ & C1 & _).
    destruct C1 as [->|[->| ->]]; [apply (HermLinks.identity_inside 0)|apply (HermLinks.identity_inside 1)|apply (HermLinks.identity_inside 2)]; auto.
Qed.

(** ** Half of the identity *)
Lemma half_nth h n t r c : (t < h)%nat -> (r < n)%nat -> (c < n)%nat ->
  listed_matrix n (map (fun e => if (e <? n * n)%nat && (e / n =? e mod n)%nat then 1 / 2 else 0) (seq 0 (h * n * n))) t r c = 1 / 2 * JordanModel.Identity t r c.
Proof.
  intros Ht Hr Hc. unfold listed_matrix. assert ((t * n + r) * n + c < h * n * n)%nat as HB by nia.
  rewrite (nth_map_lt _ _ _ 0 0%nat) by (rewrite seq_length; auto). rewrite seq_nth by auto. cbn [Nat.add].
  replace (((t * n + r) * n + c) / n)%nat with (t * n + r)%nat by (rewrite Nat.div_add_l by lia; rewrite Nat.div_small by auto; lia).
  replace (((t * n + r) * n + c) mod n)%nat with c by (rewrite Nat.add_comm, Nat.mod_add by lia; symmetry; apply Nat.mod_small; auto).
  unfold JordanModel.Identity. destruct (Nat.ltb_spec ((t * n + r) * n + c) (n * n)) as [H|H]; destruct (Nat.eqb_spec t 0) as [->|Hn]; cbn [andb].
  - cbn [Nat.mul Nat.add]. destruct (r =? c)%nat; lra.
  - assert (n <= t * n)%nat by nia. nia.
  - nia.
  - lra.
Qed.

Lemma half_interior p : consistent p -> interior_duals p (half p).
Proof.
  intros HC i co Hi. pose proof (HC i co Hi) as HCi. unfold half. rewrite Hi. destruct (ct_data co) as [cols A b|n A b|h n As C|Q|d1 d2 d3|d1 d2 d3 d4|A b]; auto.
  - split; [apply repeat_length|]. apply Forall_forall. intros x Hx. apply repeat_spec in Hx. lra.
  - split; [cbn; rewrite repeat_length; lia|]. unfold lorentz_interior. cbn [nth]. split; [lra|]. rewrite total_zero; [lra|].
    intros k Hk. apply in_seq in Hk. destruct k as [|k]; [lia|]. rewrite nth_repeat_any. ring.
  - split; [rewrite map_length, seq_length; auto|]. destruct HCi as (_ & C1 & _).
    assert (exists k, (k <= 2)%nat /\ h = (2 ^ k)%nat) as (k & Hk & Eh). { destruct C1 as [->|[->| ->]]; [exists 0%nat|exists 1%nat|exists 2%nat]; auto. }
    apply (proj2 (HermPairing.herm_multiple h n JordanModel.Identity _ (1 / 2) ltac:(lra) (half_nth h n))).
    exists k. split; auto. split; auto.
    destruct (HermLinks.identity_inside k n false Hk _ eq_refl) as (k' & Hk' & E & HP & _). cbn [hw_h hw_n] in *.
    apply HermLinks.pow_inj in E as <-. exact HP.
Qed.

Lemma herm_inner_ext_r h n X Y Z : (forall i r c, (i < h)%nat -> (r < n)%nat -> (c < n)%nat -> Y i r c = Z i r c) -> herm_inner h n X Y = herm_inner h n X Z.
Proof. intros H. rewrite (herm_inner_comm h n X Y), (herm_inner_comm h n X Z). apply herm_inner_ext. auto. Qed.

(** The block of a constraint at the identity. *)
Lemma identity_block p i co s s' q : ready p -> consistent p -> rectangular p -> nth_error (p_eqs p) i = Some co -> at_identity co s ->
  con_schur co s = Ok (s', q) -> forall a, (a < length (nth i (p_cliques p) []))%nat ->
  1 / 2 * nth a (r_AW (sc_rhs q)) 0 = contribution p (half p) [] 0 i a.
Proof.
  intros HR HC HT Hi HI E a Ha. pose proof (HC i co Hi) as HCi. pose proof (wb_vars _ (rd_built _ HR) i co Hi) as HV. rewrite <- HV in Ha.
  pose proof (identity_shape p i co s HC Hi HI) as HS.
  unfold contribution. rewrite Hi. unfold half. rewrite Hi. unfold con_schur in E. unfold at_identity in HI.
  destruct (ct_data co) as [cols A b|n A b|h n As C|Q|d1 d2 d3|d1 d2 d3 d4|A b] eqn:Ed; destruct s as [w|lam| |w|w|]; try tauto; try discriminate.
  - apply bind_ok in E as ([w' q'] & E & E2). injection E2 as _ <-.
    destruct (linear_schur_ok _ _ _ _ _ _ _ E (HT i co cols A b Hi Ed)) as (W & EW & _ & _ & _ & _ & _ & HA & _). rewrite HI in EW. injection EW as <-.
    rewrite HA, <- total_scale. apply total_ext. intros k Hk. apply in_seq in Hk.
    rewrite (nth_indep (repeat 1 _) 0 1), (nth_indep (repeat (1 / 2) _) 0 (1 / 2)) by (rewrite repeat_length; lia). rewrite !nth_repeat. ring.
  - apply bind_ok in E as (o & Eo & E). apply bind_ok in E as (q' & Eq & E). injection E as _ <-.
    destruct (soc_block _ _ _ _ _ _ _ Eo Eq) as (W & EW & _ & HL & Hn & _ & _ & _ & _ & _ & HA & _). destruct HI as [_ HI]. rewrite HI in EW. injection EW as <-.
    rewrite HA by auto. unfold Spec_Soc.inner, soc_columns. cbn [fst snd].
    rewrite (SocAlgebra.f_sym _ _ (SocAlgebra.euclid_form n)), (SocAlgebra.B_zero n _ (SocAlgebra.euclid_form n)).
    rewrite (total_single (n + 1) 0); [|lia|].
    + unfold spin_of. cbn. field.
    + intros k Hk Hk0. destruct k as [|k]; [lia|]. cbn [nth]. rewrite nth_repeat_any. ring.
  - apply bind_ok in E as (o & Eo & E). injection E as _ <-. subst w.
    assert (exists k, (k <= 2)%nat /\ h = (2 ^ k)%nat) as (k & Hk & Eh). { destruct HCi as (_ & C1 & _). destruct C1 as [->|[->| ->]]; [exists 0%nat|exists 1%nat|exists 2%nat]; auto. }
    subst h. destruct (HermLinks.herm_block k n As C _ _ o Hk Eo (HermLinks.identity_inside k n false Hk)) as (W & EW & _ & _ & _ & _ & _ & HA & _).
    injection EW as <-. rewrite HA by auto.
    rewrite (herm_inner_ext_r _ n _ _ (fun t r c => 1 / 2 * JordanModel.Identity t r c)) by (intros; apply half_nth; auto).
    rewrite herm_inner_comm, (herm_inner_multiple _ n JordanModel.Identity _ _ (1 / 2)) by auto. f_equal. rewrite herm_inner_comm, HermLinks.inner_trace.
    symmetry. exact (JordanSteps.cl_inner k n _ _).
  - apply bind_ok in E as (q' & Eq & E). injection E as _ <-. destruct (quadratic_schur_ok _ _ _ Eq) as (_ & HA & _). rewrite HA, Rmult_0_r.
    symmetry. apply total_zero. intros b _. destruct (nth b _ _); cbn; ring.
  - apply bind_ok in E as (q' & Eq & E). injection E as _ <-. unfold equality_schur in Eq. destruct ((_ || _) || _) in Eq; [discriminate|]. injection Eq as <-. cbn [sc_rhs r_AW].
    rewrite nth_repeat_any, Rmult_0_r. destruct (a <? _)%nat.
    + symmetry. apply total_zero. intros j _. destruct (nth (_ + j) _ _); cbn; ring.
    + unfold row_value. rewrite total_zero; [ring|]. intros j _. destruct (nth j (nth i (p_cliques p) []) _); cbn; ring.
Qed.

(** ** The call *)
Lemma feasible_objective nf p n : well_built p -> consistent p -> listed p -> rectangular p ->
  exists p2 n2 v, GetFeasibleObjective nf p n = Ok (p2, n2, v) /\ Initialize p true 25 = Ok p2 /\
    length v = SizeOfKKTSystem p /\ forall u, nth u v 0 = gradient p (half p) [] 0 u.
Proof.
  intros HW HC HL HT. unfold GetFeasibleObjective.
  assert (exists p2, Initialize p true 25 = Ok p2) as (p2 & Ei).
  { unfold Initialize. rewrite orb_true_r. cbn [InitializeWorkspace p_cliques p_duals].
    destruct (kkt_dimension _ _ (wb_admissible _ HW)) as (d & o & bs & Eb & _). rewrite Eb. cbn [bind]. eauto. }
  rewrite Ei. cbn [bind].
  destruct (Initialize_fields _ _ _ _ Ei) as (F1 & F2 & F3 & F4 & F5 & F6 & F7 & F8 & F9).
  assert (SizeOfKKTSystem p2 = SizeOfKKTSystem p) as ES by (unfold SizeOfKKTSystem; rewrite F6, F8; reflexivity).
  assert (consistent p2) as HC2 by (unfold consistent; rewrite F4; auto).
  assert (listed p2) as HL2 by (unfold listed in *; rewrite F7, F4; auto).
  assert (rectangular p2) as HT2 by (unfold rectangular in *; rewrite F4; auto).
  assert (ready p2) as R.
  { destruct HW as [W1 W2 W3 W4 W6 W7 W5]. constructor.
    - constructor; rewrite ?F2, ?F4, ?F5, ?F6, ?ES; auto.
    - unfold Initialize in Ei. rewrite orb_true_r in Ei. cbn [InitializeWorkspace p_cliques p_duals] in Ei. apply bind_ok in Ei as (x & _ & Ei). injection Ei as <-. reflexivity.
    - unfold Initialize in Ei. rewrite orb_true_r in Ei. cbn [InitializeWorkspace p_cliques p_duals] in Ei. apply bind_ok in Ei as (x & _ & Ei). injection Ei as <-. reflexivity. }
  set (n2 := Initialize_numeric (conex 0 nf) p p2 true 25 n). set (st := nm_bk n2).
  assert (shaped at_identity p2 st) as G.
  { unfold st, n2, Initialize_numeric. rewrite orb_true_r. cbn [nm_bk]. apply identity_all; auto.
    split; [cbn; rewrite map_length; auto|]. cbn. intros i co s Hi Hs. rewrite nth_error_map, Hi in Hs. injection Hs as <-.
    pose proof (HC2 i co Hi) as Hc. unfold classed, fresh. destruct (ct_data co); auto. }
  unfold with_solver. rewrite (rd_solver _ R).
  destruct (kkt_dimension _ _ (wb_admissible _ (rd_built _ R))) as (d & o & bs & Eb & _). rewrite Eb. cbn [bind].
  destruct (mapM_all (fun i => '(c, s) <- get_con p2 st i ;; con_schur c s) (seq 0 (length (p_eqs p2)))) as (q & Eq).
  { intros i Hi. apply in_seq in Hi. destruct (shaped_get _ _ _ i G ltac:(lia)) as (co & s & H1 & H2 & -> & H3). cbn [bind].
    destruct (schur_total co s (HC2 i co H1) (identity_shape p2 i co s HC2 H1 H3)) as (s' & q & -> & _). eauto. }
  rewrite Eq. cbn [bind]. pose proof (mapM_length _ _ _ Eq) as Hlq. rewrite seq_length in Hlq.
  assert (forall i co, nth_error (p_eqs p2) i = Some co -> exists s, at_identity co s /\ con_schur co s = Ok (nth i q qdef)) as HQ.
  { intros i co Hi. pose proof (nth_error_lt _ _ _ Hi) as Hlt. destruct (mapM_nth _ _ _ i i Eq) as (b & E1 & E2).
    { rewrite (nth_error_nth' _ 0%nat) by (rewrite seq_length; auto). rewrite seq_nth by auto. auto. }
    destruct (shaped_get _ _ _ i G Hlt) as (co' & s & H1 & H2 & H3 & H4). rewrite H3 in E2. cbn [bind] in E2.
    assert (co' = co) as -> by congruence. exists s. split; auto. rewrite (nth_error_nth_eq _ _ _ _ E1). auto. }
  assert (d_N d = SizeOfKKTSystem p2) as HN by (apply (covered_N (p_cliques p2) (p_duals p2) d o bs); [apply (rd_built _ R)|auto|apply (rd_built _ R)]).
  destruct (assemble_rhs_ok (p_cliques p2) (p_duals p2) d o bs (map (fun x => sc_rhs (snd x)) q)) as (aw & aq & Ea & L1 & L2 & A1 & A2).
  - apply (rd_built _ R).
  - auto.
  - rewrite map_length, (wb_lengths _ (rd_built _ R)). auto.
  - intros c v. rewrite HN. apply (ready_range p2). auto.
  - intros i ci Hi. rewrite nth_error_map in Hi. destruct (nth_error q i) as [[s' sc]|] eqn:Eqi; [|discriminate]. injection Hi as <-.
    pose proof (nth_error_lt _ _ _ Eqi) as Hlt. destruct (nth_error (p_eqs p2) i) as [c|] eqn:Ec; [|apply nth_error_None in Ec; lia].
    destruct (HQ i c Ec) as (s & _ & E). rewrite (nth_error_nth_eq _ _ _ _ Eqi) in E.
    rewrite <- (wb_vars _ (rd_built _ R) i c Ec). cbn. eapply con_schur_sizes; eauto.
  - rewrite HN in *. rewrite Ea. cbn [bind]. eexists _, _, _. split; [reflexivity|]. split; auto. split; [rewrite map_length; congruence|].
    intros u. replace (nth u (map (fun x => 1 / 2 * x) aw) 0) with (1 / 2 * nth u aw 0).
    2:{ replace 0 with ((fun x => 1 / 2 * x) 0) at 2 by lra. rewrite map_nth. auto. }
    rewrite A1, map_length, Hlq, <- total_scale. unfold gradient. rewrite <- F4. apply total_ext. intros i Hi. apply in_seq in Hi.
    rewrite F5, <- placed_scale. apply placed_ext. intros a Ha. rewrite <- F5 in Ha.
    destruct (nth_error (p_eqs p2) i) as [co|] eqn:Ec; [|apply nth_error_None in Ec; lia].
    destruct (HQ i co Ec) as (s & H1 & H2). destruct (nth i q qdef) as [s' sc] eqn:En.
    pose proof (identity_block p2 i co s s' sc R HC2 HT2 Ec H1 H2 a Ha) as HB.
    assert (nth i (map (fun x : cstate * schur => sc_rhs (snd x)) q) (mkRhs [] [] 0 0) = sc_rhs sc) as ->.
    { change (mkRhs [] [] 0 0) with ((fun x : cstate * schur => sc_rhs (snd x)) qdef). rewrite map_nth, En. reflexivity. }
    rewrite HB. unfold contribution, half. rewrite F4, F5. reflexivity.
Qed.

(** ** Bounded objectives *)
Lemma bounded_by_duals p x z : well_built p -> consistent p -> rectangular p -> interior_duals p x -> feasible p z ->
  total (fun u => gradient p x [] 0 u * nth u z 0) (seq 0 (SizeOfKKTSystem p)) <= dual_value p x.
Proof.
  intros HW HC HT HX HF. unfold gradient, dual_value.
  rewrite (total_ext _ (fun u => total (fun i => placed (nth i (p_cliques p) []) (contribution p x [] 0 i) u * nth u z 0) (seq 0 (length (p_eqs p))))).
  2:{ intros u _. rewrite total_scale_r. auto. }
  rewrite total_swap. apply total_le. intros i Hi. apply in_seq in Hi.
  assert (In (nth i (p_cliques p) []) (p_cliques p)) as Hin by (apply nth_In; rewrite (wb_lengths _ HW); lia).
  rewrite (placed_pair _ _ _ (fun u => nth u z 0)).
  2:{ intros a Ha. apply (wb_covered _ HW). exists (nth i (p_cliques p) []). split; auto. apply nth_In. auto. }
  destruct (nth_error (p_eqs p) i) as [co|] eqn:Ec; [|apply nth_error_None in Ec; lia].
  pose proof (wb_vars _ HW i co Ec) as HV. pose proof (HC i co Ec) as HCi. pose proof (HX i co Ec) as HXi. pose proof (HF i co Ec) as HFi.
  set (cl := nth i (p_cliques p) []) in *. unfold contribution. rewrite Ec. fold cl.
  destruct (ct_data co) as [cols A b|n A b|h n As C|Q|d1 d2 d3|d1 d2 d3 d4|A b] eqn:Ed; try tauto.
  - destruct HCi as (_ & _ & Hc). destruct HXi as [HL HP].
    rewrite (total_ext _ (fun a => total (fun k => nth k (x i) 0 * (mget A k a * nth (nth a cl 0%nat) z 0)) (seq 0 (length A)))).
    2:{ intros a _. rewrite <- total_scale_r. apply total_ext. intros k _. ring. }
    rewrite total_swap. apply total_le. intros k Hk. apply in_seq in Hk. rewrite total_scale.
    assert (length (nth k A []) = cols) as HLk.
    { pose proof (HT i co cols A b Ec Ed) as HCo. unfold has_cols in HCo. rewrite Forall_forall in HCo. apply HCo. apply nth_In. lia. }
    rewrite (total_seq_cut _ cols); [|lia|intros j Hj; rewrite (mget_over cols A k j) by (auto; exact (HT i co cols A b Ec Ed)); ring].
    specialize (HFi k ltac:(lia)). unfold row_value in HFi. rewrite HLk in HFi. unfold mget. rewrite Rmult_comm.
    apply Rmult_le_compat_r; [|exact HFi]. rewrite Forall_forall in HP. apply Rlt_le, HP, nth_In. lia.
  - destruct HCi as (Hn & HL & _). destruct HXi as [_ [X1 X2]]. destruct HFi as [Z1 Z2].
    rewrite (total_ext _ (fun a => total (fun k => nth k (x i) 0 * (nth k (nth a A []) 0 * nth (nth a cl 0%nat) z 0)) (seq 0 (n + 1)))).
    2:{ intros a _. rewrite <- total_scale_r. apply total_ext. intros k _. ring. }
    rewrite total_swap.
    rewrite (total_ext _ (fun k => nth k b 0 * nth k (x i) 0 - nth k (x i) 0 * cone_slack A b cl z k)).
    2:{ intros k _. rewrite total_scale. unfold cone_slack, column_value. rewrite HL, HV. ring. }
    rewrite total_minus.
    enough (0 <= total (fun k => nth k (x i) 0 * cone_slack A b cl z k) (seq 0 (n + 1))) by lra.
    pose proof (cone_pairing n (nth 0 (x i) 0, fun k => nth (S k) (x i) 0) (cone_slack A b cl z 0%nat, fun k => cone_slack A b cl z (S k))) as HP.
    rewrite SocLinks.inner_entries in HP. unfold Spec_Soc.cone in HP. cbn [fst snd] in HP.
    assert (forall f, Spec_Soc.euclid n (fun k => f (S k)) (fun k => f (S k)) = total (fun k => f k * f k) (seq 1 n)) as HE.
    { intros f. unfold Spec_Soc.euclid. rewrite rsum_total, <- seq_shift, total_map. reflexivity. }
    rewrite (HE (fun k => nth k (x i) 0)), (HE (cone_slack A b cl z)) in HP.
    rewrite (total_ext _ (fun k => SocLinks.entry_of (nth 0 (x i) 0, fun k => nth (S k) (x i) 0) k * SocLinks.entry_of (cone_slack A b cl z 0%nat, fun k => cone_slack A b cl z (S k)) k)) by (intros [|k] _; reflexivity).
    apply HP; split; lra.
  - destruct HCi as (Hn & H1 & HL & _). destruct HXi as [_ (k & Hk & Eh & HP)].
    rewrite (herm_inner_total h n (fun a => component (nth a As []))).
    rewrite (herm_inner_ext h n _ (fun t r c => component C t r c - herm_slack As C cl z t r c)).
    2:{ intros t r c _ _ _. unfold herm_slack. rewrite HL, HV. ring. }
    rewrite herm_inner_minus.
    enough (0 <= herm_inner h n (herm_slack As C cl z) (listed_matrix n (x i))) by lra.
    apply HermPairing.herm_pairing; auto. exists k. split; auto. split; auto. apply (LanczosFacts.posdef_psd _ (HyperFacts.laws_cd k)). auto.
  - rewrite total_zero; [lra|]. intros a _. rewrite total_zero; [ring|]. intros b _. destruct (nth b cl _); cbn; ring.
  - rewrite total_zero; [lra|]. intros a _. destruct (a <? _)%nat.
    + rewrite total_zero; [ring|]. intros j _. destruct (nth (_ + j) cl _); cbn; ring.
    + unfold row_value. rewrite total_zero; [ring|]. intros j _. destruct (nth j cl _); cbn; ring.
Qed.

(** ** Use as an objective *)
Lemma vadd_zero : forall (a b : list R), length a = length b -> (forall x, In x a -> x = 0) -> vadd a b = b.
Proof.
  induction a as [|x a IH]; intros [|y b] H HZ; try discriminate; auto. cbn. rewrite (HZ x (or_introl eq_refl)). f_equal; [lra|].
  apply IH; [cbn in H; lia|]. intros z Hz. apply HZ. right. auto.
Qed.

Lemma objective_set nf p n p2 n2 v : well_built p -> consistent p -> listed p -> rectangular p ->
  GetFeasibleObjective nf p n = Ok (p2, n2, v) -> SizeOfKKTSystem p = p_n p -> length (p_cost p) = p_n p ->
  p_cost (set_objective p2 v) = map Ropp v.
Proof.
  intros H1 H2 H3 H4 E HN HL. destruct (feasible_objective nf p n H1 H2 H3 H4) as (p2' & n2' & v' & E' & Ei & L & _).
  rewrite E in E'. injection E' as <- <- <-. destruct (Initialize_fields _ _ _ _ Ei) as (F1 & F2 & F3 & F4 & F5 & F6 & F7 & F8 & F9).
  unfold set_objective, AddLinearCost, ClearLinearCosts. cbn [set_cost p_n p_cost]. rewrite F8, map_length, L, HN, Nat.eqb_refl. cbn [negb fst set_cost p_cost].
  apply vadd_zero; [rewrite !map_length, F2; congruence|]. intros x Hx. apply in_map_iff in Hx as (y & <- & _). auto.
Qed.

Lemma objective_dropped nf p n p2 n2 v : well_built p -> consistent p -> listed p -> rectangular p ->
  GetFeasibleObjective nf p n = Ok (p2, n2, v) -> SizeOfKKTSystem p <> p_n p ->
  p_cost (set_objective p2 v) = repeat 0 (length (p_cost p)).
Proof.
  intros H1 H2 H3 H4 E HN. destruct (feasible_objective nf p n H1 H2 H3 H4) as (p2' & n2' & v' & E' & Ei & L & _).
  rewrite E in E'. injection E' as <- <- <-. destruct (Initialize_fields _ _ _ _ Ei) as (F1 & F2 & F3 & F4 & F5 & F6 & F7 & F8 & F9).
  unfold set_objective, AddLinearCost, ClearLinearCosts. cbn [set_cost p_n p_cost]. rewrite F8, map_length, L.
  destruct (Nat.eqb_spec (p_n p) (SizeOfKKTSystem p)); [congruence|]. cbn [negb fst set_cost p_cost]. rewrite F2.
  generalize (p_cost p) as l. induction l as [|x l IH]; cbn; auto. f_equal. exact IH.
Qed.
