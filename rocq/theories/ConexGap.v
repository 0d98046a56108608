(** Distance of the returned point from the optimum (C48, C54). *)
From Coq Require Import List Arith ZArith Reals Bool Lia Lra.
From Verif Require Import Base BaseFacts LayoutModel SupernodeModel TriWorkspaceModel AssemblerModel DenseModel BlockModel KktModel
  ProgramModel ApiModel DivergenceModel SolveModel LinearModel ConcreteBackend Spec_Linear Spec_Assembly RhsProofs Spec_Program Spec_Solve Spec_Conex
  SolveProofs SolveFacts SolveStats SolveLast Prop_Solve ConexFacts ConexStep ConexKkt ConexBlocks ConexNewton ConexResult.
From Verif Require Import SocLinks Spec_Semidefinite.
From Verif Require Spec_Hyper JordanModel HermBound HermLinks HermPairing.
From Verif Require Spec_Soc Spec_SocSteps SocAlgebra SocProofs SocCone SocNewton.
Import ListNotations.
Open Scope R_scope.

Lemma total_le {A} (f g : A -> R) l : (forall a, In a l -> f a <= g a) -> total f l <= total g l.
Proof.
  unfold total. induction l as [|a l IH]; cbn; intros H; [lra|].
  pose proof (H a (or_introl eq_refl)). pose proof (IH (fun x Hx => H x (or_intror Hx))). lra.
Qed.
Lemma total_minus {A} (f g : A -> R) l : total (fun a => f a - g a) l = total f l - total g l.
Proof. unfold total. induction l as [|a l IH]; cbn; [lra|]. rewrite IH. lra. Qed.

(** Elements of the cone have nonnegative products. *)
Lemma cone_pairing n x y : Spec_Soc.cone (Spec_Soc.euclid n) x -> Spec_Soc.cone (Spec_Soc.euclid n) y ->
  0 <= Spec_Soc.inner (Spec_Soc.euclid n) x y.
Proof.
  intros [X0 X1] [Y0 Y1]. pose proof (SocAlgebra.euclid_form n) as F. pose proof (SocAlgebra.cauchy n _ F (snd x) (snd y)) as C.
  pose proof (SocAlgebra.f_psd _ _ F (snd x)) as P. pose proof (SocAlgebra.f_psd _ _ F (snd y)) as Q. unfold Spec_Soc.inner.
  set (a := fst x) in *. set (b := fst y) in *. set (p := Spec_Soc.euclid n (snd x) (snd x)) in *. set (q := Spec_Soc.euclid n (snd y) (snd y)) in *.
  set (r := Spec_Soc.euclid n (snd x) (snd y)) in *. assert (0 <= a * b) by (apply Rmult_le_pos; auto).
  assert (p * q <= a * a * (b * b)) by (apply Rmult_le_compat; auto).
  assert (Rabs r <= Rabs (a * b)) as HA by (apply Rsqr_le_abs_0; unfold Rsqr; lra).
  rewrite (Rabs_pos_eq (a * b)) in HA by auto. pose proof (Rle_abs (- r)) as HR. rewrite Rabs_Ropp in HR. lra.
Qed.

(** Products of the entries of matrices. *)
Lemma herm_inner_multiple h n X Y Z t : (forall i r c, (i < h)%nat -> (r < n)%nat -> (c < n)%nat -> Y i r c = t * X i r c) ->
  herm_inner h n Y Z = t * herm_inner h n X Z.
Proof.
  intros H. unfold herm_inner. rewrite <- total_scale. apply total_ext. intros i Hi. rewrite <- total_scale. apply total_ext. intros r Hr.
  rewrite <- total_scale. apply total_ext. intros c Hc. apply in_seq in Hi, Hr, Hc. rewrite H by lia. ring.
Qed.
Lemma herm_inner_minus h n X Y Z : herm_inner h n (fun i r c => X i r c - Y i r c) Z = herm_inner h n X Z - herm_inner h n Y Z.
Proof.
  unfold herm_inner. rewrite <- total_minus. apply total_ext. intros i _. rewrite <- total_minus. apply total_ext. intros r _.
  rewrite <- total_minus. apply total_ext. intros c _. ring.
Qed.
Lemma herm_inner_plus h n X Y Z : herm_inner h n (fun i r c => X i r c + Y i r c) Z = herm_inner h n X Z + herm_inner h n Y Z.
Proof.
  unfold herm_inner. rewrite <- total_plus. apply total_ext. intros i _. rewrite <- total_plus. apply total_ext. intros r _.
  rewrite <- total_plus. apply total_ext. intros c _. ring.
Qed.
Lemma herm_inner_ext h n X Y Z : (forall i r c, (i < h)%nat -> (r < n)%nat -> (c < n)%nat -> X i r c = Y i r c) -> herm_inner h n X Z = herm_inner h n Y Z.
Proof. intros H. rewrite (herm_inner_multiple h n Y X Z 1); [ring|]. intros. rewrite H by auto. ring. Qed.
Lemma herm_inner_comm h n X Y : herm_inner h n X Y = herm_inner h n Y X.
Proof. unfold herm_inner. apply total_ext. intros i _. apply total_ext. intros r _. apply total_ext. intros c _. ring. Qed.
Lemma herm_inner_total {A} h n (G : A -> nat -> nat -> nat -> R) Z f l :
  total (fun a => herm_inner h n (G a) Z * f a) l = herm_inner h n (fun i r c => total (fun a => G a i r c * f a) l) Z.
Proof.
  induction l as [|a l IH].
  - change (total _ []) with 0. rewrite (herm_inner_multiple h n (fun _ _ _ => 0) _ Z 0); [ring|]. intros. change (total _ []) with 0. ring.
  - change (total (fun a => herm_inner h n (G a) Z * f a) (a :: l)) with (herm_inner h n (G a) Z * f a + total (fun a => herm_inner h n (G a) Z * f a) l).
    rewrite IH, Rmult_comm, <- (herm_inner_multiple h n (G a) (fun i r c => G a i r c * f a)) by (intros; ring). rewrite <- herm_inner_plus. reflexivity.
Qed.

Section Final.
  Context {nf : environment}.
  Variables (p : program) (c : config) (p2 : program) (M k : nat) (y' : list R) (e : entry) (st : cst) (bs cs : R)
    (q : list (cstate * schur)) (E : nat -> R) (y : list R) (st2 st3 st4 : cst) (norm nsq : R) (D : list (list R)) (ar : list (option R))
    (cx by_ : R).
  Hypothesis F : final_newton nf p c p2 M k y' e st bs cs q E y st2 st3 st4 norm nsq D ar cx by_.
  Hypothesis HR : rectangular p.
  Hypothesis HE : sized_equalities p.
  Hypothesis HO : on_costs p.
  Hypothesis Hmu : 1 / (en_ism e * en_ism e) <= infeasibility_threshold c.
  Notation ism := (en_ism e).
  Notation m := (length (p_cost p)).
  Notation cl i := (nth i (p_cliques p) []).

  Lemma fin_ism : 0 < ism. Proof. apply (nw_ism _ _ _ _ _ _ _ _ _ _ _ _ _ _ _ (fn_newton _ _ _ _ _ _ _ _ _ _ _ _ _ _ _ _ _ _ _ _ _ _ F)). Qed.
  Lemma fin_bs : 0 < bs. Proof. apply (nw_bs _ _ _ _ _ _ _ _ _ _ _ _ _ _ _ (fn_newton _ _ _ _ _ _ _ _ _ _ _ _ _ _ _ _ _ _ _ _ _ _ F)). Qed.
  Lemma fin_cs : 0 < cs. Proof. apply (nw_cs _ _ _ _ _ _ _ _ _ _ _ _ _ _ _ (fn_newton _ _ _ _ _ _ _ _ _ _ _ _ _ _ _ _ _ _ _ _ _ _ F)). Qed.

  Lemma fin_clique i : (i < length (p_eqs p))%nat -> forall a, (a < length (cl i))%nat -> (nth a (cl i) 0 < SizeOfKKTSystem p)%nat.
  Proof.
    intros Hi a Ha. pose proof (fn_fields _ _ _ _ _ _ _ _ _ _ _ _ _ _ _ _ _ _ _ _ _ _ F) as (F1 & F2 & F3 & F4 & F5 & F6 & F7).
    rewrite <- F5. apply (ready_range p2 (cl i)).
    - apply (fn_ready _ _ _ _ _ _ _ _ _ _ _ _ _ _ _ _ _ _ _ _ _ _ F).
    - rewrite <- F2. apply nth_in_cliques; [apply (fn_ready _ _ _ _ _ _ _ _ _ _ _ _ _ _ _ _ _ _ _ _ _ _ F)|]. rewrite F1. auto.
    - apply nth_In. auto.
  Qed.

  Lemma fin_linear i co cols A b : nth_error (p_eqs p) i = Some co -> ct_data co = CLinear cols A b ->
    (cols <= length (cl i))%nat /\ length b = length A /\ length (duals_of st3 D i) = length A /\ length (nth i D []) = length A /\
    forall r, (r < length A)%nat -> exists w, 0 < w /\
      nth r (duals_of st3 D i) 0 = w * (1 + nth r (nth i D []) 0) /\
      Rabs (nth r (nth i D []) 0) <= en_dinf e /\
      (nth r b 0 - row_value (nth r A []) (cl i) y') * (ism * cs) * w = 1 - nth r (nth i D []) 0.
  Proof.
    intros Hi Hd. pose proof (fn_fields _ _ _ _ _ _ _ _ _ _ _ _ _ _ _ _ _ _ _ _ _ _ F) as (F1 & F2 & F3 & F4 & F5 & F6 & F7).
    pose proof (fn_newton _ _ _ _ _ _ _ _ _ _ _ _ _ _ _ _ _ _ _ _ _ _ F) as N.
    pose proof (nth_error_lt _ _ _ Hi) as Hil.
    destruct (nw_step _ _ _ _ _ _ _ _ _ _ _ _ _ _ _ N i ltac:(rewrite F1; auto)) as (co' & s & s' & cl' & z & T1 & T2 & T3 & T4 & T5 & T6).
    rewrite F1, Hi in T1. injection T1 as <-. rewrite Hd in T6. destruct s as [w| | | | |]; try tauto. destruct s' as [w'| | | | |]; try tauto.
    destruct T6 as (W & X1 & X2 & X3 & X4 & X5 & X6 & X7 & X8 & X9). cbn [op_c_weight op_e_weight] in X8.
    rewrite F2 in T4. pose proof (nth_error_nth_eq _ _ _ [] T4) as Ecl.
    pose proof (Vars_ok _ _ _ T5) as (V1 & V2). pose proof (HR i co cols A b Hi Hd) as HCo.
    pose proof (interior_linear _ _ _ _ (nw_interior _ _ _ _ _ _ _ _ _ _ _ _ _ _ _ N) T2 X1) as HP. rewrite Forall_forall in HP.
    rewrite Ecl in *. split; [lia|]. split; auto. split. { unfold duals_of. rewrite T3, X2, map_length, combine_length. lia. } split; auto.
    intros r Hr. exists (nth r W 0). split; [apply HP; apply nth_In; lia|].
    split. { apply (duals_of_nth st3 D i w' W r); auto; lia. }
    split. { rewrite (fn_dinf _ _ _ _ _ _ _ _ _ _ _ _ _ _ _ _ _ _ _ _ _ _ F). pose proof (X9 r Hr). pose proof (Rle_abs norm). lra. }
    rewrite (X8 r Hr). rewrite (slack_row cols _ cl' y z); auto.
    2:{ unfold has_cols in HCo. rewrite Forall_forall in HCo. apply HCo. apply nth_In. auto. }
    assert (row_value (nth r A []) cl' y' * (ism * cs) = row_value (nth r A []) cl' y) as HS.
    { assert (length (nth r A []) = cols) as HLr.
      { unfold has_cols in HCo. rewrite Forall_forall in HCo. apply HCo. apply nth_In. auto. }
      apply (scaled_row _ _ _ _ _ _ _ _ _ _ _ _ _ _ _ _ _ _ _ _ _ _ (nth r A []) cl' F Hmu); [lia| |eapply cost_length; eauto].
      intros j Hj. pose proof (HO i co Hi) as HOi. rewrite Hd, Ecl in HOi. rewrite Forall_forall in HOi. apply HOi. apply nth_In. lia. }
    rewrite <- HS. ring.
  Qed.

  (** Slack times dual variable. *)
  Lemma fin_product i co cols A b r : nth_error (p_eqs p) i = Some co -> ct_data co = CLinear cols A b -> (r < length A)%nat ->
    (nth r b 0 - row_value (nth r A []) (cl i) y') * nth r (duals_of st3 D i) 0 =
    (1 - nth r (nth i D []) 0 * nth r (nth i D []) 0) / (ism * cs).
  Proof.
    intros Hi Hd Hr. destruct (fin_linear i co cols A b Hi Hd) as (_ & _ & _ & _ & H). destruct (H r Hr) as (w & W1 & -> & _ & W4).
    pose proof fin_ism. pose proof fin_cs. assert (0 < ism * cs) as Hp by (apply Rmult_lt_0_compat; auto).
    set (s := nth r b 0 - row_value (nth r A []) (cl i) y') in *. set (d := nth r (nth i D []) 0) in *.
    apply (Rmult_eq_reg_r (ism * cs)); [|lra].
    transitivity ((s * (ism * cs) * w) * (1 + d)); [ring|]. rewrite W4. field. split; lra.
  Qed.

  (** The same for second-order cones. *)
  Lemma fin_cone i co n A b : nth_error (p_eqs p) i = Some co -> ct_data co = CSoc n A b ->
    length A = length (cl i) /\
    exists s d sl, duals_of st3 D i = list_of n (Spec_Soc.jscale 2 (Spec_SocSteps.dual_point (Spec_Soc.euclid n) s d)) /\
      nth i D [] = list_of n d /\ d = Spec_Soc.direction (Spec_Soc.euclid n) s sl /\ Spec_Soc.interior (Spec_Soc.euclid n) s /\
      Rabs (fst d + SocAlgebra.enorm (Spec_Soc.euclid n) d) <= en_dinf e /\ Rabs (fst d - SocAlgebra.enorm (Spec_Soc.euclid n) d) <= en_dinf e /\
      forall k, entry_of sl k = cone_slack A b (cl i) y' k * (ism * cs).
  Proof.
    intros Hi Hd. pose proof (fn_fields _ _ _ _ _ _ _ _ _ _ _ _ _ _ _ _ _ _ _ _ _ _ F) as (F1 & F2 & F3 & F4 & F5 & F6 & F7).
    pose proof (fn_newton _ _ _ _ _ _ _ _ _ _ _ _ _ _ _ _ _ _ _ _ _ _ F) as N.
    pose proof (nth_error_lt _ _ _ Hi) as Hil.
    destruct (nw_step _ _ _ _ _ _ _ _ _ _ _ _ _ _ _ N i ltac:(rewrite F1; auto)) as (co' & s & s' & cl' & z & T1 & T2 & T3 & T4 & T5 & T6).
    rewrite F1, Hi in T1. injection T1 as <-. rewrite Hd in T6. destruct s as [| | |w| |]; try tauto. destruct s' as [| | |w'| |]; try tauto.
    destruct T6 as (x & (W & sq & X1 & X2 & X3 & X4 & X5 & X6 & X7 & X8 & X9) & Tx & N1 & N2). cbn [op_c_weight] in X8.
    rewrite F2 in T4. pose proof (nth_error_nth_eq _ _ _ [] T4) as Ecl. pose proof (Vars_ok _ _ _ T5) as (V1 & V2).
    pose proof (interior_soc _ _ _ _ (nw_interior _ _ _ _ _ _ _ _ _ _ _ _ _ _ _ N) T2 X1) as HW. rewrite X3 in HW.
    pose proof (SocAlgebra.euclid_form n) as HF. rewrite Ecl. split; [lia|].
    exists sq, x, (soc_slack A b (ism * cs) z).
    split. { unfold duals_of. rewrite T3, X9. cbn [sw_W sw_d sw_n]. reflexivity. }
    split; [exact Tx|]. split; [exact X8|]. split; [eapply (SocProofs.sqrt_interior n _ HF); eauto|].
    assert (norm <= en_dinf e) as Hn by (rewrite (fn_dinf _ _ _ _ _ _ _ _ _ _ _ _ _ _ _ _ _ _ _ _ _ _ F); apply Rle_abs).
    split; [lra|]. split; [lra|]. intros k0. rewrite (soc_slack_entry A b _ cl' y z k0) by auto. unfold cone_slack.
    assert (column_value A cl' y' k0 * (ism * cs) = column_value A cl' y k0) as HS; [|rewrite <- HS; ring].
    pose proof (fn_y _ _ _ _ _ _ _ _ _ _ _ _ _ _ _ _ _ _ _ _ _ _ F) as EY.
    assert (mu_exceeds ism (infeasibility_threshold c) = false) as Hm by (apply mu_exceeds_spec; split; [pose proof fin_ism; lra|auto]).
    rewrite Hm in EY. rewrite EY. pose proof fin_ism. pose proof fin_cs.
    assert (map (fun x => x / ism / cs) (firstn m y) = map (fun x => / (ism * cs) * x) (firstn m y)) as ->.
    { apply map_ext. intros u. field. lra. }
    rewrite column_value_scaled; [field; lra|lia|]. intros j Hj. split; [|apply V2; lia].
    pose proof (HO i co Hi) as HOi. rewrite Hd, Ecl in HOi. rewrite Forall_forall in HOi. apply HOi. apply nth_In. lia.
  Qed.

  (** The same for Hermitian constraints. *)
  Lemma fin_neg i co h n As C z : nth_error (p_eqs p) i = Some co -> ct_data co = CHerm h n As C -> length As = length z -> Vars y (cl i) = Ok z ->
    forall t r c0, HermLinks.herm_neg n As C (ism * cs) z t r c0 = - (ism * cs) * herm_slack As C (cl i) y' t r c0.
  Proof.
    intros Hi Hd Hl T5. pose proof (Vars_ok _ _ _ T5) as (V1 & V2). pose proof fin_ism as Pi. pose proof fin_cs as Pc.
    set (cl' := cl i) in *. assert (nth i (p_cliques p) [] = cl') as Ecl by reflexivity.
    intros t r c0. rewrite HermLinks.herm_neg_entry. unfold herm_slack.
      assert (total (fun j => component (nth j As []) t r c0 * nth j z 0) (seq 0 (length As)) =
        ism * cs * total (fun j => component (nth j As []) t r c0 * nth (nth j cl' 0%nat) y' 0) (seq 0 (length As))) as ->; [|ring].
      rewrite <- total_scale. apply total_ext. intros j Hj. apply in_seq in Hj.
      assert (nth (nth j cl' 0%nat) y' 0 * (ism * cs) = nth j z 0) as <-; [|ring].
      pose proof (fn_y _ _ _ _ _ _ _ _ _ _ _ _ _ _ _ _ _ _ _ _ _ _ F) as EY.
      assert (mu_exceeds ism (infeasibility_threshold c) = false) as Hm by (apply mu_exceeds_spec; split; [lra|auto]).
      rewrite Hm in EY. rewrite EY.
      assert (nth j cl' 0%nat < m)%nat as Hc.
      { pose proof (HO i co Hi) as HOi. rewrite Hd, Ecl in HOi. rewrite Forall_forall in HOi. apply HOi. apply nth_In. lia. }
      destruct (V2 j ltac:(lia)) as [V3 V4]. rewrite V4, (nth_map_lt _ _ _ 0 0) by (rewrite firstn_length; lia). rewrite nth_firstn_lt by auto. field. lra.
  Qed.

  Lemma fin_matrix i co h n As C : nth_error (p_eqs p) i = Some co -> ct_data co = CHerm h n As C ->
    length As = length (cl i) /\
    exists X, duals_of st3 D i = HermBound.entries h n X /\
      herm_inner h n (herm_slack As C (cl i) y') X * (ism * cs) = INR n - vdot (nth i D []) (nth i D []) /\
      (vdot (nth i D []) (nth i D []) <= 1 -> herm_psd h n X /\ herm_psd h n (herm_slack As C (cl i) y')) /\
      (vdot (nth i D []) (nth i D []) < 1 -> herm_pd h n X /\ herm_pd h n (herm_slack As C (cl i) y')) /\
      scaled_pair h n (ism * cs) (herm_slack As C (cl i) y') X.
  Proof.
    intros Hi Hd. pose proof (fn_fields _ _ _ _ _ _ _ _ _ _ _ _ _ _ _ _ _ _ _ _ _ _ F) as (F1 & F2 & F3 & F4 & F5 & F6 & F7).
    pose proof (fn_newton _ _ _ _ _ _ _ _ _ _ _ _ _ _ _ _ _ _ _ _ _ _ F) as N.
    pose proof (nth_error_lt _ _ _ Hi) as Hil.
    destruct (nw_step _ _ _ _ _ _ _ _ _ _ _ _ _ _ _ N i ltac:(rewrite F1; auto)) as (co' & s & s' & cl' & z & T1 & T2 & T3 & T4 & T5 & T6).
    rewrite F1, Hi in T1. injection T1 as <-. rewrite Hd in T6. destruct s as [| | | |w|]; try tauto. destruct s' as [| | | |w'|]; try tauto.
    destruct T6 as (x & X1 & Tx). cbn [op_c_weight] in X1.
    rewrite F2 in T4. pose proof (nth_error_nth_eq _ _ _ [] T4) as Ecl. pose proof (Vars_ok _ _ _ T5) as (V1 & V2).
    pose proof X1 as (a & W0 & G & Hk & Eh & EW & Hn & Hh & Hw & Hl & HC & HD & HP & HF1 & HF2 & ED & Ew').
    destruct (HermLinks.herm_result h n As C (ism * cs) z w w' x X1) as (W & WS & E1 & E2 & E3 & E4 & R1 & R2 & R3).
    assert (W0 = W /\ JordanModel.Multiply h n W (HermLinks.herm_neg n As C (ism * cs) z) = WS) as [-> EWS].
    { rewrite Ew' in E1, E2. cbn [hw_W hw_WS] in E1, E2. split; congruence. }
    set (X := HermLinks.herm_dual h n W WS) in *.
    assert (vdot (nth i D []) (nth i D []) = JordanModel.TraceInnerProduct h n n x x) as ->.
    { rewrite Tx, vdot_total. apply HermLinks.entries_square. }
    rewrite Ecl. pose proof fin_ism as Pi. pose proof fin_cs as Pc. assert (0 < ism * cs) as Hp by (apply Rmult_lt_0_compat; auto).
    assert (forall t r c0, (t < h)%nat -> (r < n)%nat -> (c0 < n)%nat ->
      HermLinks.herm_neg n As C (ism * cs) z t r c0 = - (ism * cs) * herm_slack As C cl' y' t r c0) as HS.
    { intros t r c0 _ _ _. rewrite <- Ecl. apply (fin_neg i co h n As C z Hi Hd ltac:(lia)). rewrite Ecl. exact T5. }
    split; [lia|]. exists X. 
    split. { unfold duals_of. rewrite T3, E1, E2, E3, E4. reflexivity. }
    split. { rewrite (herm_inner_multiple h n (herm_slack As C cl' y') _ X _ HS) in R1. lra. }
    assert (forall t r c0, (t < h)%nat -> (r < n)%nat -> (c0 < n)%nat -> herm_slack As C cl' y' t r c0 = / (ism * cs) * - HermLinks.herm_neg n As C (ism * cs) z t r c0) as HM.
    { intros t r c0 H1 H2 H3. rewrite HS by auto. field. lra. }
    destruct (HermPairing.herm_multiple h n _ _ _ (Rinv_0_lt_compat _ Hp) HM) as [M1 M2].
    split. { intros HH. destruct (R2 HH). split; auto. }
    split. { intros HH. destruct (R3 HH). split; auto. }
    exists a, W. split; [auto|]. split; [auto|]. split; [auto|].
    unfold X. rewrite <- EWS. rewrite Eh in HS |- *. apply HermPairing.herm_dual_formula; auto.
  Qed.

  Lemma listed_psd h n X : herm_psd h n (listed_matrix n (HermBound.entries h n X)) <-> herm_psd h n X.
  Proof.
    assert (forall i r c0, (i < h)%nat -> (r < n)%nat -> (c0 < n)%nat -> listed_matrix n (HermBound.entries h n X) i r c0 = 1 * X i r c0) as H.
    { intros i r c0 H1 H2 H3. unfold listed_matrix. rewrite HermBound.entries_nth by auto. ring. }
    assert (forall i r c0, (i < h)%nat -> (r < n)%nat -> (c0 < n)%nat -> X i r c0 = 1 * listed_matrix n (HermBound.entries h n X) i r c0) as H'.
    { intros i r c0 H1 H2 H3. rewrite H by auto. ring. }
    split; intros HP; [apply (HermPairing.herm_multiple h n _ _ 1 Rlt_0_1 H')|apply (HermPairing.herm_multiple h n _ _ 1 Rlt_0_1 H)]; auto.
  Qed.
  Lemma listed_pd h n X : herm_pd h n (listed_matrix n (HermBound.entries h n X)) <-> herm_pd h n X.
  Proof.
    assert (forall i r c0, (i < h)%nat -> (r < n)%nat -> (c0 < n)%nat -> listed_matrix n (HermBound.entries h n X) i r c0 = 1 * X i r c0) as H.
    { intros i r c0 H1 H2 H3. unfold listed_matrix. rewrite HermBound.entries_nth by auto. ring. }
    assert (forall i r c0, (i < h)%nat -> (r < n)%nat -> (c0 < n)%nat -> X i r c0 = 1 * listed_matrix n (HermBound.entries h n X) i r c0) as H'.
    { intros i r c0 H1 H2 H3. rewrite H by auto. ring. }
    split; intros HP; [apply (HermPairing.herm_multiple h n _ _ 1 Rlt_0_1 H')|apply (HermPairing.herm_multiple h n _ _ 1 Rlt_0_1 H)]; auto.
  Qed.

  (** The scaling point of a Hermitian constraint, and slack and dual in terms of it. *)
  Lemma fin_pencil i co h n As C : nth_error (p_eqs p) i = Some co -> ct_data co = CHerm h n As C ->
    exists k w W WS S0, nth_error (ct_cons st3) i = Some (SHerm w) /\ hw_W w = Some W /\ hw_WS w = Some WS /\
      (k <= 2)%nat /\ h = (2 ^ k)%nat /\ (0 < n)%nat /\
      let M := Spec_Hyper.matrix_of k in
      Spec_Hyper.posdef n (M W) /\ Spec_Hyper.hermitian_matrix n (M S0) /\ Spec_Hyper.same_matrix n (M WS) (Spec_Hyper.mmul n (M W) (M S0)) /\
      (forall t r c0, S0 t r c0 = - (ism * cs) * herm_slack As C (cl i) y' t r c0) /\
      ((forall z, - 2 * Spec_Hyper.form n (M W) z <= Spec_Hyper.form n (Spec_Hyper.mmul n (Spec_Hyper.mmul n (M W) (M S0)) (M W)) z <= 0) ->
         herm_psd h n (herm_slack As C (cl i) y') /\ herm_psd h n (listed_matrix n (duals_of st3 D i))) /\
      ((forall z, (exists r, (r < n)%nat /\ z r <> Spec_Hyper.s0) -> - 2 * Spec_Hyper.form n (M W) z < Spec_Hyper.form n (Spec_Hyper.mmul n (Spec_Hyper.mmul n (M W) (M S0)) (M W)) z < 0) ->
         herm_pd h n (herm_slack As C (cl i) y') /\ herm_pd h n (listed_matrix n (duals_of st3 D i))).
  Proof.
    intros Hi Hd. pose proof (fn_fields _ _ _ _ _ _ _ _ _ _ _ _ _ _ _ _ _ _ _ _ _ _ F) as (F1 & F2 & F3 & F4 & F5 & F6 & F7).
    pose proof (fn_newton _ _ _ _ _ _ _ _ _ _ _ _ _ _ _ _ _ _ _ _ _ _ F) as N.
    pose proof (nth_error_lt _ _ _ Hi) as Hil.
    destruct (nw_step _ _ _ _ _ _ _ _ _ _ _ _ _ _ _ N i ltac:(rewrite F1; auto)) as (co' & s & s' & cl' & z & T1 & T2 & T3 & T4 & T5 & T6).
    rewrite F1, Hi in T1. injection T1 as <-. rewrite Hd in T6. destruct s as [| | | |w|]; try tauto. destruct s' as [| | | |w'|]; try tauto.
    destruct T6 as (x & X1 & Tx). cbn [op_c_weight] in X1.
    rewrite F2 in T4. pose proof (nth_error_nth_eq _ _ _ [] T4) as Ecl.
    destruct X1 as (a & W & G & Hk & Eh & EW & Hn & Hh & Hw & Hl & HC & HD & HP & HF1 & HF2 & ED & Ew').
    rewrite <- Ecl in T5. pose proof (fin_neg i co h n As C z Hi Hd Hl T5) as HS.
    pose proof fin_ism as Pi. pose proof fin_cs as Pc. assert (0 < ism * cs) as Hp by (apply Rmult_lt_0_compat; auto).
    rewrite Eh in HD. destruct (HermLinks.herm_pencil a n As C (ism * cs) z W Hk HD HP) as (P1 & P2 & P3 & P4). rewrite <- Eh in P2, P3, P4.
    exists a, w', W, (JordanModel.Multiply h n W (HermLinks.herm_neg n As C (ism * cs) z)), (HermLinks.herm_neg n As C (ism * cs) z).
    split; [exact T3|]. split; [rewrite Ew'; reflexivity|]. split; [rewrite Ew'; reflexivity|]. do 3 (split; [assumption|]). cbv zeta.
    split; [exact HP|]. split; [exact P1|]. split; [exact P2|]. split; [exact HS|].
    assert (forall t r c0, (t < h)%nat -> (r < n)%nat -> (c0 < n)%nat -> herm_slack As C (cl i) y' t r c0 = / (ism * cs) * - HermLinks.herm_neg n As C (ism * cs) z t r c0) as HM.
    { intros t r c0 H1 H2 H3. rewrite HS. field. lra. }
    destruct (HermPairing.herm_multiple h n _ _ _ (Rinv_0_lt_compat _ Hp) HM) as [M1 M2].
    assert (duals_of st3 D i = HermBound.entries h n (HermLinks.herm_dual h n W (JordanModel.Multiply h n W (HermLinks.herm_neg n As C (ism * cs) z)))) as ->.
    { unfold duals_of. rewrite T3, Ew'. reflexivity. }
    split; intros HH; [destruct (P3 HH) as [Q1 Q2]|destruct (P4 HH) as [Q1 Q2]]; split; auto; [apply listed_psd|apply listed_pd]; auto.
  Qed.

  Definition gap_of (i : nat) : R :=
    match nth_error (p_eqs p) i with
    | Some co => match ct_data co with
                 | CLinear _ A _ => total (fun r => 1 - nth r (nth i D []) 0 * nth r (nth i D []) 0) (seq 0 (length A))
                 | CSoc _ _ _ => 2 - 2 * vdot (nth i D []) (nth i D [])
                 | CHerm _ n _ _ => INR n - vdot (nth i D []) (nth i D [])
                 | _ => 0
                 end
    | None => 0
    end.

  (** Slack times dual variable of a second-order cone. *)
  Lemma fin_cone_product i co n A b : nth_error (p_eqs p) i = Some co -> ct_data co = CSoc n A b ->
    total (fun k => cone_slack A b (cl i) y' k * nth k (duals_of st3 D i) 0) (seq 0 (n + 1)) = gap_of i / (ism * cs).
  Proof.
    intros Hi Hd. destruct (fin_cone i co n A b Hi Hd) as (HL & s & d & sl & H1 & H2 & H3 & H4 & H5 & H6 & H7).
    pose proof fin_ism. pose proof fin_cs. assert (0 < ism * cs) as Hp by (apply Rmult_lt_0_compat; auto).
    unfold gap_of. rewrite Hi, Hd, H1, H2. pose proof (SocAlgebra.euclid_form n) as HF.
    pose proof (SocNewton.newton_gap n _ HF s sl) as HG. rewrite <- H3 in HG.
    apply (Rmult_eq_reg_r (ism * cs)); [|lra]. replace ((2 - 2 * vdot (list_of n d) (list_of n d)) / (ism * cs) * (ism * cs)) with (2 - 2 * vdot (list_of n d) (list_of n d)) by (field; split; lra).
    assert (vdot (list_of n d) (list_of n d) = Spec_Soc.inner (Spec_Soc.euclid n) d d) as ->.
    { rewrite vdot_total, list_of_length, inner_entries. apply total_ext. intros k0 Hk. apply in_seq in Hk. rewrite list_of_entry by lia. auto. }
    rewrite <- HG, inner_entries, <- total_scale_r, <- total_scale. apply total_ext. intros k0 Hk. apply in_seq in Hk.
    rewrite H7, list_of_entry by lia. destruct k0; cbn [entry_of fst snd Spec_Soc.jscale]; ring.
  Qed.

  (** Close to the central path the dual variables are in the cone. *)
  Lemma fin_cone_dual i co n A b : nth_error (p_eqs p) i = Some co -> ct_data co = CSoc n A b -> en_dinf e <= 1 ->
    exists x, duals_of st3 D i = list_of n x /\ Spec_Soc.cone (Spec_Soc.euclid n) x.
  Proof.
    intros Hi Hd He. destruct (fin_cone i co n A b Hi Hd) as (HL & s & d & sl & H1 & H2 & H3 & H4 & H5 & H6 & H7).
    eexists. split; [exact H1|]. pose proof (SocAlgebra.euclid_form n) as HF.
    destruct (near_cone n _ HF s sl H4) as [_ [C0 C1]]; rewrite <- ?H3; try lra. rewrite <- H3 in C0, C1.
    split; cbn [fst snd Spec_Soc.jscale]; [lra|]. rewrite (SocAlgebra.B_scal n _ HF), (SocAlgebra.B_scal_r n _ HF).
    set (a := Spec_Soc.euclid _ _ _) in *. set (f := fst _) in *. nra.
  Qed.

  Definition x_of (z : list R) (u : nat) : R := if (u <? m)%nat then nth u z 0 - nth u y' 0 else 0.

  Lemma x_below z u : (u < m)%nat -> x_of z u = nth u z 0 - nth u y' 0.
  Proof. intros H. unfold x_of. destruct (Nat.ltb_spec u m); auto; lia. Qed.
  Lemma x_above z u : (m <= u)%nat -> x_of z u = 0.
  Proof. intros H. unfold x_of. destruct (Nat.ltb_spec u m); auto; lia. Qed.

  Lemma row_difference a vars z : (length a <= length vars)%nat -> (forall j, (j < length a)%nat -> (nth j vars 0 < m)%nat) ->
    total (fun j => nth j a 0 * x_of z (nth j vars 0%nat)) (seq 0 (length a)) = row_value a vars z - row_value a vars y'.
  Proof.
    intros Hl Hv. unfold row_value. rewrite <- total_minus. apply total_ext. intros j Hj. apply in_seq in Hj. rewrite x_below by (apply Hv; lia). ring.
  Qed.

  (** One constraint paired with [z - y']. *)
  Definition paired (z : list R) (i : nat) : R :=
    total (fun a => contribution p (duals_of st3 D) y (ism * cs) i a * x_of z (nth a (cl i) 0%nat)) (seq 0 (length (cl i))).

  Lemma paired_linear z i co cols A b : nth_error (p_eqs p) i = Some co -> ct_data co = CLinear cols A b ->
    paired z i = total (fun r => nth r (duals_of st3 D i) 0 * (row_value (nth r A []) (cl i) z - row_value (nth r A []) (cl i) y')) (seq 0 (length A)).
  Proof.
    intros Hi Hd. destruct (fin_linear i co cols A b Hi Hd) as (Hc & _ & _ & _ & _). pose proof (HR i co cols A b Hi Hd) as HCo.
    unfold paired, contribution. rewrite Hi, Hd.
    rewrite (total_ext _ (fun a => total (fun r => nth r (duals_of st3 D i) 0 * (mget A r a * x_of z (nth a (cl i) 0%nat))) (seq 0 (length A)))).
    2:{ intros a _. rewrite <- total_scale_r. apply total_ext. intros r _. ring. }
    rewrite total_swap. apply total_ext. intros r Hr. apply in_seq in Hr. rewrite total_scale. f_equal.
    assert (length (nth r A []) = cols) as HLr.
    { unfold has_cols in HCo. rewrite Forall_forall in HCo. apply HCo. apply nth_In. lia. }
    rewrite (total_seq_cut _ cols) by (auto; intros j Hj; rewrite (mget_over cols A r j) by auto; ring).
    rewrite <- row_difference.
    - rewrite HLr. reflexivity.
    - lia.
    - intros j Hj. pose proof (HO i co Hi) as HOi. rewrite Hd in HOi. rewrite Forall_forall in HOi. apply HOi. apply nth_In. lia.
  Qed.

  Lemma paired_cone z i co n A b : nth_error (p_eqs p) i = Some co -> ct_data co = CSoc n A b ->
    paired z i = total (fun k => nth k (duals_of st3 D i) 0 * (cone_slack A b (cl i) y' k - cone_slack A b (cl i) z k)) (seq 0 (n + 1)).
  Proof.
    intros Hi Hd. destruct (fin_cone i co n A b Hi Hd) as (HL & _). unfold paired, contribution. rewrite Hi, Hd.
    rewrite (total_ext _ (fun a => total (fun k => nth k (duals_of st3 D i) 0 * (nth k (nth a A []) 0 * x_of z (nth a (cl i) 0%nat))) (seq 0 (n + 1)))).
    2:{ intros a _. rewrite <- total_scale_r. apply total_ext. intros r _. ring. }
    rewrite total_swap. apply total_ext. intros r Hr. apply in_seq in Hr. rewrite total_scale. f_equal.
    unfold cone_slack, column_value.
    match goal with |- _ = nth r b 0 - ?u - (nth r b 0 - ?v) => replace (nth r b 0 - u - (nth r b 0 - v)) with (v - u) by ring end.
    rewrite HL, <- total_minus. apply total_ext. intros j Hj. apply in_seq in Hj. rewrite x_below; [ring|].
    pose proof (HO i co Hi) as HOi. rewrite Hd in HOi. rewrite Forall_forall in HOi. apply HOi. apply nth_In. lia.
  Qed.

  Lemma paired_matrix z i co h n As C : nth_error (p_eqs p) i = Some co -> ct_data co = CHerm h n As C ->
    paired z i = herm_inner h n (herm_slack As C (cl i) y') (listed_matrix n (duals_of st3 D i)) -
      herm_inner h n (herm_slack As C (cl i) z) (listed_matrix n (duals_of st3 D i)).
  Proof.
    intros Hi Hd. destruct (fin_matrix i co h n As C Hi Hd) as (HL & _). unfold paired, contribution. rewrite Hi, Hd.
    rewrite (herm_inner_total h n (fun a => component (nth a As []))), <- herm_inner_minus. apply herm_inner_ext. intros t r c0 _ _ _.
    unfold herm_slack.
    match goal with |- _ = component C t r c0 - ?u - (component C t r c0 - ?v) => replace (component C t r c0 - u - (component C t r c0 - v)) with (v - u) by ring end.
    rewrite HL, <- total_minus. apply total_ext. intros j Hj. apply in_seq in Hj. rewrite x_below; [ring|].
    pose proof (HO i co Hi) as HOi. rewrite Hd in HOi. rewrite Forall_forall in HOi. apply HOi. apply nth_In. lia.
  Qed.

  Lemma paired_equality z i co A b : nth_error (p_eqs p) i = Some co -> ct_data co = CEq A b ->
    (forall u, E u = 0) -> equality_holds A b (cl i) z -> paired z i = 0.
  Proof.
    intros Hi Hd HX Hz. destruct (HE i co A b Hi Hd) as (H1 & H2 & H3). pose proof (on_costs_eq p i co A b HO HE Hi Hd) as HV.
    pose proof (fn_fields _ _ _ _ _ _ _ _ _ _ _ _ _ _ _ _ _ _ _ _ _ _ F) as (F1 & F2 & F3 & F4 & F5 & F6 & F7).
    pose proof (rd_built _ (fn_ready _ _ _ _ _ _ _ _ _ _ _ _ _ _ _ _ _ _ _ _ _ _ F)) as HW.
    unfold paired, contribution. rewrite Hi, Hd. cbv zeta.
    rewrite (total_ext _ (fun a => total (fun j => nth (nth (length (cl i) - length A + j) (cl i) 0%nat) y 0 * (mget A j a * x_of z (nth a (cl i) 0%nat))) (seq 0 (length A)))).
    - rewrite total_swap. apply total_zero. intros j Hj. apply in_seq in Hj. rewrite total_scale.
      rewrite (total_seq_cut _ (mcols A)); [|lia|intros a Ha; rewrite (mget_over (mcols A) A j a) by auto; ring].
      rewrite <- (mcols_row A j) by (auto; lia). unfold mget.
      rewrite row_difference by (try (intros a Ha); rewrite mcols_row in * by (auto; lia); try lia; apply HV; lia).
      rewrite (Hz j) by lia.
      pose proof (final_equality _ _ _ _ _ _ _ _ _ _ _ _ _ _ _ _ _ _ _ _ _ _ i co A b j F HR HE HO Hmu (or_intror HX) Hi Hd ltac:(lia)) as HF.
      cbv zeta in HF. rewrite HX in HF. pose proof fin_ism. pose proof fin_cs. assert (0 < ism * cs) as Hp by (apply Rmult_lt_0_compat; auto).
      assert (row_value (nth j A []) (cl i) y' = nth j b 0) as ->; [|ring].
      apply (Rmult_eq_reg_r (ism * cs)); lra.
    - intros a Ha. apply in_seq in Ha. destruct (Nat.ltb_spec a (length (cl i) - length A)) as [Hlt|Hge].
      + rewrite <- total_scale_r. apply total_ext. intros j _. ring.
      + assert (x_of z (nth a (cl i) 0%nat) = 0) as ->.
        { apply x_above. assert (nth_error (p_eqs p2) i = Some co) as Hi2 by (rewrite F1; auto).
          assert (sized_equalities p2) as HE2 by (unfold sized_equalities; rewrite F1, F2, F3; auto).
          destruct (multiplier_position p2 i co A b (a - (length (cl i) - length A)) HW HE2 Hi2 Hd ltac:(lia)) as (P1 & P2 & P3).
          cbv zeta in P1. rewrite F2 in P1. rewrite F3 in *.
          replace (length (cl i) - length A + (a - (length (cl i) - length A)))%nat with a in P1 by lia. rewrite P1.
          rewrite <- F4. apply (wb_multipliers _ HW i). rewrite F3. auto. }
        rewrite Rmult_0_r. symmetry. apply total_zero. intros; ring.
  Qed.

  (** Quadratic costs. *)
  Definition bilinear (Q : matrix) (vars : list nat) (f g : nat -> R) : R :=
    total (fun a => f (nth a vars 0%nat) * total (fun b => symmetric_entry Q a b * g (nth b vars 0%nat)) (seq 0 (length vars))) (seq 0 (length vars)).
  Lemma symmetric_comm Q a b : symmetric_entry Q a b = symmetric_entry Q b a.
  Proof. unfold symmetric_entry. rewrite (Nat.max_comm a b), (Nat.min_comm a b). auto. Qed.
  Lemma bilinear_comm Q vars f g : bilinear Q vars f g = bilinear Q vars g f.
  Proof.
    unfold bilinear.
    rewrite (total_ext _ (fun a => total (fun b => f (nth a vars 0%nat) * (symmetric_entry Q a b * g (nth b vars 0%nat))) (seq 0 (length vars)))) by (intros; rewrite total_scale; auto).
    rewrite total_swap. apply total_ext. intros b _. rewrite <- total_scale. apply total_ext. intros a _. rewrite (symmetric_comm Q a b). ring.
  Qed.
  Lemma bilinear_plus Q vars f g h : bilinear Q vars (fun v => f v + g v) h = bilinear Q vars f h + bilinear Q vars g h.
  Proof. unfold bilinear. rewrite <- total_plus. apply total_ext. intros a _. ring. Qed.
  Lemma bilinear_ext Q vars f g f' g' : (forall a, (a < length vars)%nat -> f (nth a vars 0%nat) = f' (nth a vars 0%nat)) ->
    (forall a, (a < length vars)%nat -> g (nth a vars 0%nat) = g' (nth a vars 0%nat)) -> bilinear Q vars f g = bilinear Q vars f' g'.
  Proof.
    intros H1 H2. unfold bilinear. apply total_ext. intros a Ha. apply in_seq in Ha. rewrite H1 by lia. f_equal.
    apply total_ext. intros b Hb. apply in_seq in Hb. rewrite H2 by lia. auto.
  Qed.

  Lemma paired_quadratic z i co Q : nth_error (p_eqs p) i = Some co -> ct_data co = CQuad Q ->
    (forall v, 0 <= quadratic_form Q (cl i) v) ->
    paired z i <= ism * cs / 2 * (quadratic_form Q (cl i) z - quadratic_form Q (cl i) y').
  Proof.
    intros Hi Hd HP. pose proof (HO i co Hi) as HOi. rewrite Hd in HOi. rewrite Forall_forall in HOi.
    assert (forall a, (a < length (cl i))%nat -> (nth a (cl i) 0 < m)%nat) as HV by (intros a Ha; apply HOi; apply nth_In; auto).
    set (B := bilinear Q (cl i)).
    assert (forall v, quadratic_form Q (cl i) v = B (fun u => nth u v 0) (fun u => nth u v 0)) as HQ by reflexivity.
    pose proof fin_ism. pose proof fin_cs. assert (0 < ism * cs) as Hp by (apply Rmult_lt_0_compat; auto).
    assert (paired z i = ism * cs * B (x_of z) (fun u => nth u y' 0)) as ->.
    { unfold paired, contribution. rewrite Hi, Hd. unfold B, bilinear. rewrite <- total_scale. apply total_ext. intros a Ha.
      rewrite Rmult_comm, <- (Rmult_assoc (ism * cs)), (Rmult_comm (ism * cs)), Rmult_assoc. f_equal. rewrite <- total_scale. apply total_ext. intros b0 Hb. apply in_seq in Hb.
      pose proof (scaled_row _ _ _ _ _ _ _ _ _ _ _ _ _ _ _ _ _ _ _ _ _ _ [1] [nth b0 (cl i) 0%nat] F Hmu ltac:(cbn; lia)) as HS.
      unfold row_value in HS. cbn in HS. rewrite <- (Rplus_0_r (nth (nth b0 (cl i) 0%nat) y 0)).
      replace (nth (nth b0 (cl i) 0%nat) y 0 + 0) with (1 * nth (nth b0 (cl i) 0%nat) y 0 + 0) by ring. rewrite <- HS; [ring| |eapply cost_length; eauto].
      intros j Hj. assert (j = 0%nat) as -> by lia. apply HV. lia. }
    assert (0 <= B (x_of z) (x_of z)) as HX.
    { specialize (HP (map (x_of z) (seq 0 m))). rewrite HQ in HP. unfold B in *. erewrite bilinear_ext in HP; [exact HP| |];
        intros a Ha; rewrite (nth_map_lt _ _ _ 0 0%nat) by (rewrite seq_length; auto); rewrite seq_nth by auto; reflexivity. }
    assert (quadratic_form Q (cl i) z = quadratic_form Q (cl i) y' + 2 * B (x_of z) (fun u => nth u y' 0) + B (x_of z) (x_of z)) as ->.
    { rewrite !HQ. unfold B.
      rewrite (bilinear_ext Q (cl i) (fun u => nth u z 0) (fun u => nth u z 0) (fun u => nth u y' 0 + x_of z u) (fun u => nth u y' 0 + x_of z u)).
      2,3: intros a Ha; rewrite x_below by auto; ring.
      rewrite bilinear_plus. rewrite (bilinear_comm Q (cl i) (fun u => nth u y' 0)), (bilinear_comm Q (cl i) (x_of z) (fun u => _ + _)).
      rewrite !bilinear_plus. rewrite (bilinear_comm Q (cl i) (fun u => nth u y' 0) (x_of z)). ring. }
    nra.
  Qed.

  Definition form_of (z : list R) (i : nat) : R :=
    match nth_error (p_eqs p) i with
    | Some co => match ct_data co with CQuad Q => quadratic_form Q (cl i) z | _ => 0 end
    | None => 0
    end.
  Definition cost_of (z : list R) : R := total (fun v => nth v (p_cost p) 0 * nth v z 0) (seq 0 m).

  (** Every class but the modelled ones is excluded by the run. *)
  Lemma fin_class i co : nth_error (p_eqs p) i = Some co ->
    (exists cols A b, ct_data co = CLinear cols A b) \/ (exists A b, ct_data co = CEq A b) \/ (exists Q, ct_data co = CQuad Q) \/
    (exists n A b, ct_data co = CSoc n A b) \/ exists h n As C, ct_data co = CHerm h n As C.
  Proof.
    intros Hi. pose proof (fn_fields _ _ _ _ _ _ _ _ _ _ _ _ _ _ _ _ _ _ _ _ _ _ F) as (F1 & _).
    pose proof (fn_newton _ _ _ _ _ _ _ _ _ _ _ _ _ _ _ _ _ _ _ _ _ _ F) as N.
    destruct (nw_blocks _ _ _ _ _ _ _ _ _ _ _ _ _ _ _ N) as [_ NB]. rewrite F1 in NB. destruct (NB i co Hi) as (s0 & _ & Ec).
    unfold con_schur in Ec. destruct (ct_data co); destruct s0; try discriminate; eauto 10.
  Qed.

  Lemma paired_total z : (forall u, E u = 0) ->
    total (paired z) (seq 0 (length (p_eqs p))) = - (ism * bs * (cost_of z - cost_of y')).
  Proof.
    intros HX.
    pose proof (fn_fields _ _ _ _ _ _ _ _ _ _ _ _ _ _ _ _ _ _ _ _ _ _ F) as (F1 & F2 & F3 & F4 & F5 & F6 & F7).
    pose proof (fn_newton _ _ _ _ _ _ _ _ _ _ _ _ _ _ _ _ _ _ _ _ _ _ F) as N.
    pose proof (fn_ready _ _ _ _ _ _ _ _ _ _ _ _ _ _ _ _ _ _ _ _ _ _ F) as R.
    assert (rectangular p2) as HR2 by (unfold rectangular; rewrite F1; auto).
    assert (sized_equalities p2) as HE2 by (unfold sized_equalities; rewrite F1, F2, F3; auto).
    pose proof (newton_gradient _ _ _ _ _ _ _ _ _ _ _ _ _ _ _ R HR2 HE2 N (or_intror HX)) as HG. rewrite F5 in HG.
    pose proof (cost_length _ _ _ _ _ _ _ _ _ _ _ _ _ _ _ _ _ _ _ _ _ _ F) as Hm.
    transitivity (total (fun u => gradient p (duals_of st3 D) y (ism * cs) u * x_of z u) (seq 0 (SizeOfKKTSystem p))).
      - unfold gradient. rewrite (total_ext _ (fun u => total (fun i => placed (cl i) (contribution p (duals_of st3 D) y (ism * cs) i) u * x_of z u) (seq 0 (length (p_eqs p)))) (seq 0 (SizeOfKKTSystem p))).
        2:{ intros u _. rewrite total_scale_r. auto. }
        rewrite total_swap. apply total_ext. intros i Hi. apply in_seq in Hi. symmetry. apply placed_pair. intros a Ha. apply fin_clique; auto. lia.
      - rewrite (total_ext _ (fun u => ism * bs * (- nth u (p_cost p) 0) * x_of z u)).
        + rewrite (total_seq_cut _ m) by (auto; intros u Hu; rewrite x_above by auto; ring).
          unfold cost_of. rewrite <- total_minus, Ropp_mult_distr_l, <- total_scale. apply total_ext. intros u Hu. apply in_seq in Hu.
          rewrite x_below by lia. ring.
        + intros u Hu. apply in_seq in Hu. specialize (HG u ltac:(lia)). rewrite HX, Rmult_0_l, Rplus_0_r, cost_vector_nth, F4 in HG.
          unfold gradient, contribution in *. rewrite F1, F2 in HG. rewrite HG. ring. 
  Qed.

  (** The dual variables of the Hermitian constraints are positive semidefinite. *)
  Definition in_cone (co : container) : Prop := match ct_data co with CLinear _ _ _ | CSoc _ _ _ => True | _ => False end.
  Definition near_matrices : Prop := forall i co h n As C, nth_error (p_eqs p) i = Some co -> ct_data co = CHerm h n As C ->
    herm_psd h n (listed_matrix n (duals_of st3 D i)).
  Lemma fin_objective z : (forall u, E u = 0) -> (forall i co, nth_error (p_eqs p) i = Some co -> in_cone co -> en_dinf e <= 1) -> near_matrices -> convex p -> feasible p z ->
    objective p (cs / bs) y' <= objective p (cs / bs) z + total gap_of (seq 0 (length (p_eqs p))) / (ism * ism * bs * cs).
  Proof.
    intros HX Hdi0 HNm HCv Hz.
    pose proof (paired_total z HX) as HT.
    pose proof fin_ism as Pi. pose proof fin_cs as Pc. pose proof fin_bs as Pb. assert (0 < ism * cs) as Hp by (apply Rmult_lt_0_compat; auto).
    assert (total (paired z) (seq 0 (length (p_eqs p))) <=
      total (fun i => gap_of i / (ism * cs) + ism * cs / 2 * (form_of z i - form_of y' i)) (seq 0 (length (p_eqs p)))) as HL.
    { apply total_le. intros i Hi. apply in_seq in Hi. destruct (nth_error (p_eqs p) i) as [co|] eqn:Eco; [|apply nth_error_None in Eco; lia].
      unfold gap_of, form_of. rewrite Eco. pose proof (Hz i co Eco) as Hzi.
      destruct (fin_class i co Eco) as [(cols & A & b & Ed)|[(A & b & Ed)|[(Q & Ed)|[(n & A & b & Ed)|(h & n & As & C & Ed)]]]]; rewrite Ed in Hzi |- *.
      - assert (en_dinf e <= 1) as Hdi by (apply (Hdi0 i co Eco); unfold in_cone; rewrite Ed; exact I).
        rewrite (paired_linear z i co cols A b Eco Ed). unfold Rdiv at 1. rewrite <- total_scale_r.
        rewrite Rminus_diag_eq, Rmult_0_r, Rplus_0_r by auto. apply total_le. intros r Hr. apply in_seq in Hr.
        pose proof (fin_product i co cols A b r Eco Ed ltac:(lia)) as HPd. unfold Rdiv in HPd. rewrite <- HPd.
        destruct (fin_linear i co cols A b Eco Ed) as (_ & _ & _ & _ & HF). destruct (HF r ltac:(lia)) as (w & W1 & W2 & W3 & _).
        rewrite W2. rewrite Rmult_comm. apply Rmult_le_compat_r.
        + assert (- 1 <= nth r (nth i D []) 0).
          { pose proof (Rle_abs (- nth r (nth i D []) 0)). rewrite Rabs_Ropp in *. lra. }
          apply Rmult_le_pos; lra.
        + pose proof (Hzi r ltac:(lia)). lra.
      - rewrite (paired_equality z i co A b Eco Ed HX Hzi). unfold Rdiv. lra.
      - pose proof (paired_quadratic z i co Q Eco Ed (fun v => HCv i co Q v Eco Ed)). unfold Rdiv in *. lra.
      - assert (en_dinf e <= 1) as Hdi by (apply (Hdi0 i co Eco); unfold in_cone; rewrite Ed; exact I).
        rewrite (paired_cone z i co n A b Eco Ed). pose proof (fin_cone_product i co n A b Eco Ed) as HG. unfold gap_of in HG. rewrite Eco, Ed in HG.
        rewrite <- HG. rewrite Rminus_diag_eq, Rmult_0_r, Rplus_0_r by auto.
        destruct (fin_cone_dual i co n A b Eco Ed Hdi) as (x & E1 & C1).
        set (sz := cone_slack A b (cl i) z) in *.
        assert (0 <= total (fun k => sz k * nth k (duals_of st3 D i) 0) (seq 0 (n + 1))) as HN.
        { rewrite E1. set (l := map sz (seq 0 (n + 1))).
          assert (forall k0, (k0 < n + 1)%nat -> nth k0 l 0 = sz k0) as HM.
          { intros k0 Hk. unfold l. rewrite (nth_map_lt _ _ _ 0 0%nat) by (rewrite seq_length; auto). rewrite seq_nth by auto. auto. }
          rewrite (total_ext _ (fun k0 => nth k0 l 0 * nth k0 (list_of n x) 0)) by (intros k0 Hk; apply in_seq in Hk; rewrite HM by lia; auto).
          rewrite <- inner_lists. apply cone_pairing; auto. apply lorentz_entries.
          apply (lorentz_scale n sz _ 1); [lra| |exact Hzi]. intros k0 Hk. rewrite entry_spin, HM by lia. ring. }
        assert (total (fun k0 => nth k0 (duals_of st3 D i) 0 * (cone_slack A b (cl i) y' k0 - sz k0)) (seq 0 (n + 1)) =
          total (fun k0 => cone_slack A b (cl i) y' k0 * nth k0 (duals_of st3 D i) 0) (seq 0 (n + 1)) - total (fun k0 => sz k0 * nth k0 (duals_of st3 D i) 0) (seq 0 (n + 1))) as ->.
        { rewrite <- total_minus. apply total_ext. intros; ring. }
        lra.
      - rewrite (paired_matrix z i co h n As C Eco Ed). destruct (fin_matrix i co h n As C Eco Ed) as (_ & X & HX1 & HX2 & HX3 & _).
        pose proof (HNm i co h n As C Eco Ed) as PX. rewrite HX1 in PX. apply (proj1 (listed_psd h n X)) in PX.
        rewrite HX1, !HermLinks.inner_entries, <- HX2.
        pose proof (HermPairing.herm_pairing h n _ _ Hzi PX) as HN. replace (ism * cs / 2 * (0 - 0)) with 0 by ring.
        assert (herm_inner h n (herm_slack As C (cl i) y') X * (ism * cs) / (ism * cs) = herm_inner h n (herm_slack As C (cl i) y') X) as -> by (field; split; lra). lra. }
    rewrite total_plus, total_scale, total_minus in HL. unfold Rdiv at 1 in HL. rewrite total_scale_r in HL. rewrite HT in HL.
    unfold objective. change (total (fun v => nth v (p_cost p) 0 * nth v y' 0) (seq 0 m)) with (cost_of y').
    change (total (fun v => nth v (p_cost p) 0 * nth v z 0) (seq 0 m)) with (cost_of z).
    change (total (fun i => match nth_error (p_eqs p) i with Some co => match ct_data co with CQuad Q => quadratic_form Q (cl i) y' | _ => 0 end | None => 0 end) (seq 0 (length (p_eqs p)))) with (total (form_of y') (seq 0 (length (p_eqs p)))).
    change (total (fun i => match nth_error (p_eqs p) i with Some co => match ct_data co with CQuad Q => quadratic_form Q (cl i) z | _ => 0 end | None => 0 end) (seq 0 (length (p_eqs p)))) with (total (form_of z) (seq 0 (length (p_eqs p)))).
    set (G := total gap_of (seq 0 (length (p_eqs p)))) in *. set (fy := total (form_of y') (seq 0 (length (p_eqs p)))) in *.
    set (fz := total (form_of z) (seq 0 (length (p_eqs p)))) in *. set (cy := cost_of y') in *. set (cz := cost_of z) in *.
    clearbody G fy fz cy cz. clear - HL Pi Pc Pb Hp.
    assert (0 < ism * bs) as Hib by (apply Rmult_lt_0_compat; auto).
    apply (Rmult_le_reg_l (ism * bs)); auto.
    replace (ism * bs * (cy + cs / bs / 2 * fy)) with (ism * bs * cy + ism * cs / 2 * fy) by (field; lra).
    replace (ism * bs * (cz + cs / bs / 2 * fz + G / (ism * ism * bs * cs))) with (ism * bs * cz + ism * cs / 2 * fz + G * / (ism * cs)) by (field; lra).
    lra.
  Qed.

  Lemma gap_bound : total gap_of (seq 0 (length (p_eqs p))) <= inequalities p.
  Proof.
    unfold inequalities. apply total_le. intros i _. unfold gap_of. destruct (nth_error (p_eqs p) i) as [co|]; [|lra].
    destruct (ct_data co) as [cols A b|n A b|h n As C| | | |]; try lra.
    2,3:enough (0 <= vdot (nth i D []) (nth i D [])) by lra; rewrite vdot_total; apply Rle_trans with (total (fun _ : nat => 0) (seq 0 (length (nth i D [])))); [rewrite total_zero by auto; lra|];
      apply total_le; intros k0 _; pose proof (Rle_0_sqr (nth k0 (nth i D []) 0)) as HS; exact HS.
    assert (INR (length A) = total (fun _ => 1) (seq 0 (length A))) as ->.
    { rewrite <- (seq_length (length A) 0) at 1. generalize (seq 0 (length A)) as l. induction l as [|x l IH]; [auto|].
      change (total (fun _ : nat => 1) (x :: l)) with (1 + total (fun _ : nat => 1) l). rewrite <- IH. cbn [length]. rewrite S_INR. lra. }
    apply total_le. intros r _. pose proof (Rle_0_sqr (nth r (nth i D []) 0)) as HS. unfold Rsqr in HS. lra.
  Qed.
End Final.
