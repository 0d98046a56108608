(** The aggregated spectrum of the scaled slacks (C64). *)
From Coq Require Import List Arith ZArith Reals Bool Lia Lra Permutation.
From Verif Require Import Base BaseFacts DenseModel RSum LayoutModel SupernodeModel TriWorkspaceModel AssemblerModel KktModel Spec_Assembly
  ProgramModel PreprocessModel ApiModel Spec_Program ProgramProofs ProgramRun Prop_Program SolveModel LinearModel ConcreteBackend DivergenceModel
  Spec_Linear RhsProofs Spec_Solve Spec_Conex ConexFacts SocLinks SocCone ConexStep ConexBuilt Spec_Spectrum DivergenceProofs.
From Verif Require Spec_Divergence Spec_Soc Spec_SocSteps.
Import ListNotations.
Open Scope R_scope.

Notation dtotal := Spec_Divergence.total.

Lemma dtotal_app f a b : dtotal f (a ++ b) = dtotal f a + dtotal f b.
Proof. unfold Spec_Divergence.total. induction a as [|x a IH]; cbn [app fold_right]; [lra|]. rewrite IH. lra. Qed.

Lemma vdot_self l : vdot l l = dtotal (fun x => x * x) l.
Proof. induction l as [|x l IH]; [reflexivity|]. cbn [vdot Spec_Divergence.total fold_right]. rewrite IH. reflexivity. Qed.

(** What one constraint reports. *)
Definition summary (l : list R) (q : R * R * R * R) : Prop :=
  let '(lmin, lmax, frob, tr) := q in
  frob = dtotal (fun x => x * x) l /\ tr = dtotal (fun x => x) l /\
  ((l = [] /\ 30000 <= lmin /\ lmax <= -30000) \/
   (In lmin l /\ Forall (fun x => lmin <= x) l /\ In lmax l /\ Forall (fun x => x <= lmax) l)).

Lemma dbl_max_large : 30000 <= DBL_MAX.
Proof.
  unfold DBL_MAX. assert (2 ^ 15 <= 2 ^ 1023) by (apply Rle_pow; [lra|lia]). assert (/ 2 ^ 52 <= 1).
  { rewrite <- Rinv_1. apply Rinv_le_contravar; [lra|]. rewrite <- (pow1 52). apply pow_incr. lra. }
  assert (2 ^ 15 = 32768) by ring. nra.
Qed.

Lemma con_rank_data p i co : nth_error (p_eqs p) i = Some co -> con_rank p i = 
  match ct_data co with CLinear _ A _ => length A | CSoc _ _ _ | CQuadCone _ _ _ _ => 2 | CHerm _ n _ _ | CDenseLmi n _ _ => n | CQuad _ | CEq _ _ => 0 end%nat.
Proof. intros H. unfold con_rank. rewrite H. reflexivity. Qed.

Lemma linear_spectrum_ok cols A b w vars y z k w' q : has_cols cols A -> Vars y vars = Ok z -> linear_spectrum cols A b w z k = Ok (w', q) ->
  exists W, lw_W w = Some W /\ summary (map (fun r => nth r W 0 * (k * nth r b 0 - row_value (nth r A []) vars y)) (seq 0 (length A))) q.
Proof.
  intros HA HV H. unfold linear_spectrum in H. apply bind_ok in H as (W & EW & H). apply written_ok in EW. apply bind_ok in H as (ms & E1 & H).
  apply bind_ok in H as (Ws & E2 & H). apply bind_ok in H as (lo & E3 & H). apply bind_ok in H as (hi & E4 & H). injection H as <- <-.
  exists W. split; auto. apply slack_ok in E1 as (S1 & S2 & S3 & S4). apply zip_ok in E2 as (Z1 & Z2 & Z3).
  set (l := map _ _). assert (l = map Ropp Ws) as ->.
  { unfold l. apply (nth_ext _ _ 0 0); [rewrite !map_length, seq_length; lia|]. intros r Hr. rewrite map_length, seq_length in Hr.
    rewrite (nth_map_lt _ _ r 0 0%nat) by (rewrite seq_length; auto). rewrite seq_nth by auto. cbn [Nat.add].
    rewrite (nth_map_lt _ _ r 0 0) by lia. rewrite Z3 by lia. rewrite S4 by auto.
    rewrite (slack_row cols _ vars y) by (auto; apply (proj1 (Forall_forall _ _) HA); apply nth_In; auto). ring. }
  apply minCoeff_ok in E3 as [M1 M2]. apply maxCoeff_ok in E4 as [M3 M4]. split; [|split].
  - rewrite vdot_self. clear. unfold Spec_Divergence.total. induction Ws as [|x l IH]; cbn [map fold_right]; [auto|]. rewrite IH. ring.
  - clear. unfold vtotal, Spec_Divergence.total. induction Ws as [|x l IH]; cbn [map fold_right]; [lra|]. rewrite <- IH. ring.
  - right. split; [apply in_map; auto|]. split; [apply Forall_map; eapply Forall_impl; [|exact M4]; cbn; intros; lra|].
    split; [apply in_map; auto|]. apply Forall_map. eapply Forall_impl; [|exact M2]; cbn; intros; lra.
Qed.

Lemma con_spectrum_ok env p st i vars y z k st' q : rectangular p -> no_matrices p -> interior st -> nth i (p_cliques p) [] = vars -> Vars y vars = Ok z ->
  con_spectrum env p st i z k = Ok (st', q) ->
  exists co s l, nth_error (p_eqs p) i = Some co /\ nth_error (ct_cons st) i = Some s /\ slack_values vars (ct_data co) s y k l /\ summary l q.
Proof.
  intros HR HM0 HI Hc HV H. unfold con_spectrum in H. apply bind_ok in H as ([co s] & E & H). apply get_con_ok in E as [E1 E2].
  exists co, s. pose proof dbl_max_large as HM.
  destruct (ct_data co) as [cols A b|n A b|h n As C| | |Q|A b] eqn:ED; destruct s as [w|l0| |w|w|]; try discriminate.
  3:{ exfalso. eapply HM0; eauto. }
  - apply bind_ok in H as ([w' x] & E & H). injection H as <- <-. destruct (linear_spectrum_ok _ _ _ _ vars y _ _ _ _ (HR i co cols A b E1 ED) HV E) as (W & EW & HS).
    eexists. split; [auto|]. split; [auto|]. split; [|exact HS]. cbn. exists W. auto.
  - apply bind_ok in H as (o & Eo & H). apply bind_ok in H as (r & Er & H). injection H as <- <-.
    pose proof Eo as Eo'. apply soc_ready_ok in Eo' as (W & EW & Hn & Hs & Hl & ->).
    assert (Spec_Soc.interior (Spec_Soc.euclid n) W) as HW by (rewrite <- Hs; eapply interior_soc; eauto).
    destruct b as [|c0 c]; [discriminate Er|].
    match type of Er with SocModel.SWeightedSlack (soc_of _ _ _ _ ?d0) _ _ = _ =>
      destruct (soc_weighted_slack (soc_of n A (c0 :: c) W d0) (fun j => nth j z 0) k (spin_of (c0 :: c)) eq_refl HW) as (root & r' & R1 & R2 & R3 & _) end.
    rewrite Er in R2. injection R2 as <-. destruct r as [[[lo hi] frob] tr]. destruct R3 as (L1 & L2 & L3 & _ & L5 & _).
    exists [lo; hi]. split; [auto|]. split; [auto|]. split.
    + cbn. exists W, root, (soc_slack A (c0 :: c) k z), lo, hi. split; [auto|]. split; [exact R1|].
      split; [apply (soc_slack_entry A (c0 :: c) k vars y z 0); auto|]. split; [intros j _; apply (soc_slack_entry A (c0 :: c) k vars y z (S j)); auto|].
      split; [auto|]. exact L2.
    + split; [cbn; lra|]. split; [cbn; lra|]. right. split; [left; auto|]. split; [apply Forall_cons; [lra|]; apply Forall_cons; [lra|constructor]|].
      split; [right; left; auto|]. apply Forall_cons; [lra|]; apply Forall_cons; [lra|constructor].
  - injection H as <- <-. exists []. repeat (split; auto). left. split; auto. lra.
  - injection H as <- <-. exists []. repeat (split; auto). left. split; auto. lra.
Qed.

(** The calls change temporaries only. *)
Definition kin (st st' : cst) : Prop := forall i s', nth_error (ct_cons st') i = Some s' -> exists s, nth_error (ct_cons st) i = Some s /\
  forall vars x y k l, slack_values vars x s' y k l -> slack_values vars x s y k l.

Lemma kin_refl st : kin st st.
Proof. intros i s' H. exists s'. auto. Qed.
Lemma kin_trans a b c : kin a b -> kin b c -> kin a c.
Proof. intros H1 H2 i s H. destruct (H2 i s H) as (s1 & E1 & F1). destruct (H1 i s1 E1) as (s0 & E0 & F0). exists s0. split; auto. Qed.

Lemma con_spectrum_kin env p st i y k st' r : con_spectrum env p st i y k = Ok (st', r) -> kin st st'.
Proof.
  intros H. unfold con_spectrum in H. apply bind_ok in H as ([c s] & E & H). apply get_con_ok in E as [E1 E2].
  destruct (ct_data c) as [cols A b| | | | | |A b]; destruct s as [w|l0| |w|w|]; try discriminate.
  - apply bind_ok in H as ([w' x] & E & H). injection H as <- _.
    unfold linear_spectrum in E. apply bind_ok in E as (W & EW & E). apply written_ok in EW.
    apply bind_ok in E as (s0 & _ & E). apply bind_ok in E as (e0 & _ & E). apply bind_ok in E as (s1 & _ & E).
    apply bind_ok in E as (e1 & _ & E). injection E as <- _. intros j s' Hj. unfold set_con in Hj. cbn in Hj.
    rewrite nth_error_upd in Hj by (eapply nth_error_lt; eauto). destruct (Nat.eqb_spec i j) as [<-|].
    + injection Hj as <-. exists (SLinear w). split; auto. intros vars d y' k' l. destruct d; cbn; auto. intros (W' & F & El). injection F as <-. exists W. auto.
    + exists s'. auto.
  - apply bind_ok in H as (q & _ & H). apply bind_ok in H as (r' & _ & H). injection H as <- _. apply kin_refl.
  - apply bind_ok in H as (q & _ & H). destruct (JordanModel.HWeightedSlack _ _ _ _) as [tr fr].
    destruct (env_estimate _ _ _ _ _ _) as [[lo hi]|]; injection H as <- _; exact (kin_refl st).
  - injection H as <- _. apply kin_refl.
  - injection H as <- _. apply kin_refl.
Qed.

(** The state of the loop after the first [m] constraints. *)
Definition gathered (p : program) (st : cst) (y : list R) (k : R) (m : nat) (acc : cst * spectrum) : Prop :=
  same_core st (fst acc) /\ kin st (fst acc) /\
    exists ls, length ls = m /\
    (forall i co s, (i < m)%nat -> nth_error (p_eqs p) i = Some co -> nth_error (ct_cons st) i = Some s ->
       slack_values (nth i (p_cliques p) []) (ct_data co) s y k (nth i ls [])) /\
    (forall i, (i < m)%nat -> exists s, nth_error (ct_cons st) i = Some s) /\
    frobenius_norm_squared (snd acc) = dtotal (fun x => x * x) (concat ls) /\ trace (snd acc) = dtotal (fun x => x) (concat ls) /\
    least (concat ls) 30000 (lambda_min (snd acc)) /\ greatest (concat ls) (-30000) (lambda_max (snd acc)).

Lemma foldM_prefix {T A} (f : T -> A -> res T) (I : nat -> T -> Prop) : forall l m s s',
  (forall j a s s1, nth_error l j = Some a -> I (m + j)%nat s -> f s a = Ok s1 -> I (S (m + j)) s1) ->
  I m s -> foldM f s l = Ok s' -> I (m + length l)%nat s'.
Proof.
  induction l as [|a l IH]; intros m s s' H H0 E; cbn in E.
  - injection E as <-. cbn. rewrite Nat.add_0_r. auto.
  - apply bind_ok in E as (s1 & E1 & E2). cbn [length]. rewrite Nat.add_succ_r. change (S (m + length l))%nat with (S m + length l)%nat. apply (IH (S m) s1 s'); auto.
    + intros j b u u1 Hj Hu Eu. specialize (H (S j) b u u1 Hj). rewrite Nat.add_succ_r in H. apply H; auto.
    + specialize (H 0%nat a s s1 eq_refl). rewrite Nat.add_0_r in H. auto.
Qed.

Lemma least_app l a lo x : least l a lo -> forall l2, ((l2 = [] /\ a <= x) \/ (In x l2 /\ Forall (fun z => x <= z) l2)) ->
  least (l ++ l2) a (if Rltb x lo then x else lo).
Proof.
  intros (H1 & H2 & H3) l2 H. unfold Rltb. destruct (Rlt_dec x lo) as [Hx|Hx].
  - destruct H as [[-> H]|[H4 H5]]; [lra|]. split; [lra|]. split; [|right; apply in_app_iff; auto].
    apply Forall_app. split; auto. eapply Forall_impl; [|exact H2]. cbn. intros; lra.
  - split; auto. split; [|destruct H3; auto; right; apply in_app_iff; auto]. apply Forall_app. split; auto.
    destruct H as [[-> _]|[_ H5]]; [constructor|]. eapply Forall_impl; [|exact H5]. cbn. intros; lra.
Qed.

Lemma greatest_app l a hi x l2 : greatest l a hi -> ((l2 = [] /\ x <= a) \/ (In x l2 /\ Forall (fun z => z <= x) l2)) ->
  greatest (l ++ l2) a (if Rltb hi x then x else hi).
Proof.
  intros (H1 & H2 & H3) H. unfold Rltb. destruct (Rlt_dec hi x) as [Hx|Hx].
  - destruct H as [[-> H]|[H4 H5]]; [lra|]. split; [lra|]. split; [|right; apply in_app_iff; auto].
    apply Forall_app. split; auto. eapply Forall_impl; [|exact H2]. cbn. intros; lra.
  - split; auto. split; [|destruct H3; auto; right; apply in_app_iff; auto]. apply Forall_app. split; auto.
    destruct H as [[-> _]|[_ H5]]; [constructor|]. eapply Forall_impl; [|exact H5]. cbn. intros; lra.
Qed.

Lemma spectrum_gathered iters nf p st y k st' s : rectangular p -> no_matrices p -> interior st ->
  GetWeightedSlackEigenvalues (conex iters nf) p st y k = Ok (st', s) ->
  gathered p st y k (length (p_eqs p)) (st', s).
Proof.
  intros HR HM0 HI H. unfold GetWeightedSlackEigenvalues in H. unfold NumberOfConstraints in H.
  replace (length (p_eqs p)) with (0 + length (seq 0 (length (p_eqs p))))%nat by (rewrite seq_length; auto).
  apply (foldM_prefix _ (gathered p st y k) _ 0%nat _ _) in H; [exact H| |].
  2:{ split; [apply same_core_refl|]. split; [apply kin_refl|]. exists []. cbn. repeat split; auto; try lra; try (intros; lia). }
  intros j a [st1 s1] [st2 s2] Hj (C1 & K1 & ls & L1 & L2 & L3 & L4 & L5 & L6 & L7) E. cbn [fst snd] in *.
  assert (a = j) as ->. { pose proof (nth_error_lt _ _ _ Hj) as Hl. rewrite seq_length in Hl. rewrite (nth_error_nth' _ 0%nat) in Hj by (rewrite seq_length; auto). rewrite seq_nth in Hj by auto. injection Hj as <-. auto. }
  cbn [Nat.add] in *. apply bind_ok in E as (clique & Ec & E). apply bind_ok in E as (z & Ez & E).
  apply bind_ok in E as ([st3 [[[lmin lmax] frob] tr]] & Es & E). injection E as <- <-. cbn in Es.
  assert (nth j (p_cliques p) [] = clique) as Hc. { unfold at_ in Ec. destruct (nth_error (p_cliques p) j) eqn:F; [|discriminate]. injection Ec as ->. apply nth_error_nth; auto. }
  destruct (con_spectrum_ok nf p st1 j clique y z k _ _ HR HM0 (interior_core _ _ C1 HI) Hc Ez Es) as (co & s' & l & F1 & F2 & F3 & G1 & G2 & G3).
  destruct (K1 _ _ F2) as (s0 & F4 & F5). apply F5 in F3.
  split; [eapply same_core_trans; [exact C1|eapply con_spectrum_core; eauto]|]. split; [eapply kin_trans; [exact K1|eapply con_spectrum_kin; eauto]|].
  exists (ls ++ [l]). rewrite concat_app. cbn [concat fst snd frobenius_norm_squared trace lambda_min lambda_max]. rewrite app_nil_r, !dtotal_app.
  split; [rewrite app_length; cbn; lia|]. split; [|split; [|split; [|split; [|split]]]].
  - intros i co' s'' Hi Hco Hs. destruct (Nat.eq_dec i j) as [->|Hn].
    + rewrite app_nth2 by lia. rewrite L1, Nat.sub_diag. cbn. rewrite Hc. rewrite F1 in Hco. injection Hco as <-. rewrite F4 in Hs. injection Hs as <-. auto.
    + rewrite app_nth1 by lia. apply L2; auto. lia.
  - intros i Hi. destruct (Nat.eq_dec i j) as [->|Hn]; [eauto|]. apply L3. lia.
  - lra.
  - lra.
  - apply least_app; auto. destruct G3 as [(-> & H1 & H2)|(H1 & H2 & H3 & H4)]; auto.
  - apply greatest_app; auto. destruct G3 as [(-> & H1 & H2)|(H1 & H2 & H3 & H4)]; auto.
Qed.

(** The reported numbers, and the list they summarise. *)
Lemma spectrum_reported iters nf p st y k st' s : rectangular p -> no_matrices p -> interior st ->
  GetWeightedSlackEigenvalues (conex iters nf) p st y k = Ok (st', s) ->
  exists ls, slack_eigenvalues p st y k ls /\
    frobenius_norm_squared s = dtotal (fun x => x * x) (concat ls) /\ trace s = dtotal (fun x => x) (concat ls) /\
    least (concat ls) 30000 (lambda_min s) /\ greatest (concat ls) (-30000) (lambda_max s).
Proof.
  intros HR HM0 HI H. destruct (spectrum_gathered _ _ _ _ _ _ _ _ HR HM0 HI H) as (_ & _ & ls & L1 & L2 & L3 & L4 & L5 & L6 & L7).
  exists ls. split; [split; auto|auto]. intros i co s0 Hi Hs. apply L2; auto. eapply nth_error_lt; eauto.
Qed.

Lemma reported_summary s l r : frobenius_norm_squared s = dtotal (fun x => x * x) l -> trace s = dtotal (fun x => x) l ->
  least l 30000 (lambda_min s) -> greatest l (-30000) (lambda_max s) ->
  (exists x, In x l /\ x <= 30000) -> (exists x, In x l /\ -30000 <= x) -> r = length l ->
  Spec_Divergence.summarises (mkSpectrum (frobenius_norm_squared s) (trace s) (lambda_min s) (lambda_max s) (INR r)) l.
Proof.
  intros H1 H2 (L1 & L2 & L3) (G1 & G2 & G3) (a & A1 & A2) (b & B1 & B2) ->. constructor; cbn; auto.
  - split; auto. destruct L3 as [E|]; auto. rewrite Forall_forall in L2. specialize (L2 a A1). replace (lambda_min s) with a by lra. auto.
  - split; auto. destruct G3 as [E|]; auto. rewrite Forall_forall in G2. specialize (G2 b B1). replace (lambda_max s) with b by lra. auto.
Qed.

Lemma parameter_reported iters nf p c st AQc cs b rankK st' k : rectangular p -> no_matrices p -> interior st -> 0 < divergence_upper_bound c ->
  ComputeMuFromDivergence (conex iters nf) p c st AQc cs b rankK = Ok (st', k) ->
  exists r y ls, vminus AQc b = Ok r /\ bk_solve (conex iters nf) p st r = Ok y /\ slack_eigenvalues p st y cs ls /\
    (length (concat ls) = rankK -> Forall (fun x => 0 < x) (concat ls) -> (exists x, In x (concat ls) /\ x <= 30000) ->
     0 < k /\ (forall M, Spec_Divergence.distance_from_one k (concat ls) M -> M < 1) /\
     let bound := divergence_upper_bound c * INR rankK in
     ((Spec_Divergence.divergence_is k (concat ls) bound /\ forall z, 0 < z -> Spec_Divergence.divergence_is z (concat ls) bound -> z <= k) \/
      ((forall z, 0 < z -> ~ Spec_Divergence.divergence_is z (concat ls) bound) /\
       forall M z Mz, Spec_Divergence.distance_from_one k (concat ls) M -> Spec_Divergence.distance_from_one z (concat ls) Mz -> M <= Mz))).
Proof.
  intros HR HM0 HI Hu H. unfold ComputeMuFromDivergence in H. apply bind_ok in H as (r & Er & H). apply bind_ok in H as (y & Ey & H).
  apply bind_ok in H as ([st1 s] & Es & H). injection H as <- Hk.
  destruct (spectrum_reported _ _ _ _ _ _ _ _ HR HM0 HI Es) as (ls & H1 & H2 & H3 & H4 & H5).
  exists r, y, ls. split; auto. split; auto. split; auto. intros Hl HF (a & A1 & A2). subst rankK.
  assert (0 < a) as Ha by (rewrite Forall_forall in HF; auto).
  assert (exists x, In x (concat ls) /\ -30000 <= x) as Hb by (exists a; split; [auto|lra]).
  pose proof (reported_summary s (concat ls) _ H2 H3 H4 H5 (ex_intro _ a (conj A1 A2)) Hb eq_refl) as HS.
  destruct (mu_positive _ _ _ HS HF Hu) as (k' & E & P1 & P2 & P3). rewrite E in Hk. subst k'. auto.
Qed.

(** ** The rank *)

Lemma fold_plus f l : forall a, fold_left (fun r i : nat => (r + f i)%nat) l a = (a + list_sum (map f l))%nat.
Proof. induction l as [|x l IH]; intros a; cbn [fold_left map list_sum fold_right]; [cbn; lia|]. rewrite IH. unfold list_sum. cbn. lia. Qed.

Lemma list_sum_perm a b : Permutation a b -> list_sum a = list_sum b.
Proof. unfold list_sum. induction 1; cbn in *; lia. Qed.

Lemma sum_over f l n : NoDup l -> (forall i, In i l -> (i < n)%nat) -> (forall i, (i < n)%nat -> ~ In i l -> f i = 0%nat) ->
  list_sum (map f l) = list_sum (map f (seq 0 n)).
Proof.
  intros H1 H2 H3. set (rest := filter (fun i => negb (existsb (Nat.eqb i) l)) (seq 0 n)).
  assert (forall i, In i rest <-> (i < n)%nat /\ ~ In i l) as HR.
  { intros i. unfold rest. rewrite filter_In, in_seq, negb_true_iff. rewrite <- not_true_iff_false, existsb_exists.
    split; intros [A B]; split; try lia; intros C; apply B; [exists i; split; auto; apply Nat.eqb_refl|].
    destruct C as (x & X1 & X2). apply Nat.eqb_eq in X2. subst. auto. }
  assert (Permutation (l ++ rest) (seq 0 n)) as HP.
  { apply NoDup_Permutation.
    - apply NoDup_app_inv. split; [auto|]. split; [unfold rest; apply NoDup_filter, seq_NoDup|]. intros i Hi Hj. apply HR in Hj. tauto.
    - apply seq_NoDup.
    - intros i. rewrite in_app_iff, HR, in_seq. split; [intros [A|A]; [apply H2 in A|]; lia|]. intros A.
      destruct (in_dec Nat.eq_dec i l); auto. right. split; [lia|auto]. }
  apply (Permutation_map f) in HP. apply list_sum_perm in HP. rewrite map_app, list_sum_app in HP. rewrite <- HP.
  assert (list_sum (map f rest) = 0%nat) as ->; [|lia].
  assert (forall i, In i rest -> f i = 0%nat) as HZ by (intros i Hi; apply HR in Hi as [? ?]; auto).
  clear - HZ. induction rest as [|x r IH]; cbn; auto. rewrite HZ by (left; auto). apply IH. intros i Hi. apply HZ. right. auto.
Qed.

Lemma nodup_append p p' x v du r : reg p -> NoDup (p_constraints p) -> mappended p p' x v du r -> NoDup (p_constraints p').
Proof.
  intros [R1 R2 R3] HN (_ & E2 & _ & E4 & _ & E6). rewrite E6. destruct r; [|rewrite app_nil_r; auto].
  apply NoDup_app_inv. split; [auto|]. split; [constructor; [intros []|constructor]|]. intros i Hi [<-|[]]. apply R2 in Hi. lia.
Qed.

Lemma nodup_step p k p' r : reg p -> NoDup (p_constraints p) -> api_step p k = Ok (p', r) -> NoDup (p_constraints p').
Proof.
  intros G HN E. apply step_effect in E. destruct E as [p' H|p' lv x vars Hg Ha Hk|q p' x y Ha Hb|m p' H H0 Hm|i x ct p' Hk Hi Hu ->].
  - mgr_eq H. repeat match goal with E : _ p' = _ |- _ => rewrite E; clear E end; auto.
  - eapply nodup_append; eauto.
  - assert (reg q) as Gq by (eapply reg_append; eauto; apply registered_or). eapply (nodup_append q); eauto. eapply (nodup_append p); eauto.
  - mgr_eq Hm. repeat match goal with E : _ p' = _ |- _ => rewrite E; clear E end; auto.
  - pose proof (set_data_mgr p i x ct Hi) as H. mgr_eq H. repeat match goal with E : _ (set_data p i x) = _ |- _ => rewrite E; clear E end; auto.
Qed.

Lemma nodup_run : forall ks p p' rs, reg p -> NoDup (p_constraints p) -> api_run p ks = Ok (p', rs) -> NoDup (p_constraints p').
Proof.
  induction ks as [|k ks IH]; intros p p' rs G HN E.
  - cbn in E. injection E as <- <-. auto.
  - apply run_cons in E as (p1 & r & rs' & E1 & E2 & ->). destruct (reg_step _ _ _ _ G E1) as [G1 O1].
    exact (IH _ _ _ G1 (nodup_step _ _ _ _ G HN E1) E2).
Qed.

Lemma slack_values_length vars x s y k l : slack_values vars x s y k l -> length l =
  match x with CLinear _ A _ => length A | CSoc _ _ _ | CQuadCone _ _ _ _ => 2 | CHerm _ n _ _ | CDenseLmi n _ _ => n | CQuad _ | CEq _ _ => 0 end%nat.
Proof.
  destruct x, s; cbn; try tauto.
  - intros (W & _ & ->). rewrite map_length, seq_length. auto.
  - intros (W & root & sl & t & u & _ & _ & _ & _ & -> & _). auto.
  - intros ->. auto.
  - intros ->. auto.
Qed.

Lemma length_concat {A} (ls : list (list A)) : length (concat ls) = list_sum (map (@length A) ls).
Proof. induction ls as [|l ls IH]; cbn; auto. rewrite app_length, IH. auto. Qed.

Lemma rank_eigenvalues n ks q rs p iters nf st y k ls : api_run (new_program n) ks = Ok (q, rs) ->
  p_eqs p = p_eqs q -> p_constraints p = p_constraints q -> length (ct_cons st) = length (p_eqs p) ->
  slack_eigenvalues p st y k ls -> length (concat ls) = Rank (conex iters nf) p.
Proof.
  intros E P1 P2 HL [L1 L2]. destruct (reg_run _ _ _ _ (proj1 (reg_new n)) E) as [G _].
  pose proof (nodup_run _ _ _ _ (proj1 (reg_new n)) (NoDup_nil _) E) as HN.
  unfold Rank. cbn [bk_rank conex]. rewrite (fold_plus (con_rank p)). cbn [Nat.add]. rewrite <- P2 in HN.
  assert (forall i, In i (p_constraints p) -> (i < length (p_eqs p))%nat) as HG by (rewrite P1, P2; apply (rg_range _ G)).
  rewrite (sum_over _ _ (length (p_eqs p)) HN HG).
  - rewrite length_concat. f_equal. apply (nth_ext _ _ 0%nat 0%nat); [rewrite !map_length, seq_length; auto|].
    intros i Hi. rewrite map_length in Hi. rewrite (nth_map_lt _ _ i 0%nat []) by auto. rewrite (nth_map_lt _ _ i 0%nat 0%nat) by (rewrite seq_length; lia).
    rewrite seq_nth by lia. cbn [Nat.add]. destruct (nth_error (p_eqs p) i) as [co|] eqn:Ec; [|apply nth_error_None in Ec; lia].
    destruct (nth_error (ct_cons st) i) as [s|] eqn:Es; [|apply nth_error_None in Es; lia].
    rewrite (slack_values_length _ _ _ _ _ _ (L2 i co s Ec Es)), (con_rank_data _ _ _ Ec). auto.
  - intros i Hi Hn. destruct (nth_error (p_eqs p) i) as [co|] eqn:Ec; [|apply nth_error_None in Ec; lia].
    rewrite P2 in Hn. destruct (rg_steps _ G i co ltac:(rewrite <- P1; exact Ec)) as [H|(A & b & H)]; [tauto|]. rewrite (con_rank_data _ _ _ Ec), H. auto.
Qed.

(** The new centering parameter without line search. *)
Lemma update_reported iters nf p c st b bs cs rankK ism st' t : rectangular p -> no_matrices p -> interior st -> 0 < divergence_upper_bound c ->
  enable_line_search c = 0%Z -> update_mu (conex iters nf) p c st b bs cs rankK ism = Ok (Some (st', t)) ->
  exists r y ls, vminus (vscale cs (r_AQc (ct_sys st))) (vscale bs b) = Ok r /\ bk_solve (conex iters nf) p st r = Ok y /\ slack_eigenvalues p st y cs ls /\
    (length (concat ls) = rankK -> Forall (fun x => 0 < x) (concat ls) -> (exists x, In x (concat ls) /\ x <= 30000) ->
     0 < t /\ (forall M, Spec_Divergence.distance_from_one t (concat ls) M -> M < 1) /\
     let bound := divergence_upper_bound c * INR rankK in
     ((Spec_Divergence.divergence_is t (concat ls) bound /\ forall z, 0 < z -> Spec_Divergence.divergence_is z (concat ls) bound -> z <= t) \/
      ((forall z, 0 < z -> ~ Spec_Divergence.divergence_is z (concat ls) bound) /\
       forall M z Mz, Spec_Divergence.distance_from_one t (concat ls) M -> Spec_Divergence.distance_from_one z (concat ls) Mz -> M <= Mz))).
Proof.
  intros HR HM0 HI Hu Hs H. unfold update_mu in H. rewrite Hs in H. cbn [Z.eqb negb bind] in H. unfold Rltb at 1 in H. destruct (Rlt_dec (-1) 0) as [_|?]; [|lra].
  destruct (p_quadratic p); [discriminate|]. apply bind_ok in H as ([st2 t2] & E & H). injection H as <- Ht. cbn [bk_sys conex] in E.
  destruct (parameter_reported _ _ _ _ _ _ _ _ _ _ _ HR HM0 HI Hu E) as (r & y & ls & H1 & H2 & H3 & H4).
  exists r, y, ls. split; auto. split; auto. split; auto. intros G1 G2 G3. specialize (H4 G1 G2 G3).
  unfold Rltb in Ht. destruct (Rlt_dec 0 t2) as [Hp|Hp]; [subst t2; auto|]. tauto.
Qed.
