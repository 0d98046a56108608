(** Facts about the concrete constraint operations. *)
From Coq Require Import List Arith ZArith Reals Bool Lia Lra.
From Verif Require Import Base BaseFacts LayoutModel SupernodeModel TriWorkspaceModel AssemblerModel DenseModel BlockModel KktModel
  ProgramModel ApiModel DivergenceModel SolveModel LinearModel ConcreteBackend Spec_Linear RhsProofs Spec_Solve Spec_Conex
  SolveProofs SolveFacts SolveLast.
From Verif Require Spec_Soc SocAlgebra SocProofs SocLinks HermLinks.
Import ListNotations.
Open Scope R_scope.

Lemma zip_ok f a : forall b l, zip_ f a b = Ok l ->
  length b = length a /\ length l = length a /\
  forall i, (i < length a)%nat -> nth i l 0 = f (nth i a 0) (nth i b 0).
Proof.
  induction a as [|x a IH]; intros [|y b] l H; cbn in H; try discriminate.
  - injection H as <-. cbn. repeat split; auto. intros; lia.
  - apply bind_ok in H as (t & E & H). injection H as <-. destruct (IH _ _ E) as (H1 & H2 & H3).
    cbn. split; [lia|]. split; [lia|]. intros [|i] Hi; auto. apply H3. lia.
Qed.

Lemma zip_total f a : forall b, length b = length a -> exists l, zip_ f a b = Ok l.
Proof.
  induction a as [|x a IH]; intros [|y b] H; cbn in *; try lia; [eauto|].
  destruct (IH b ltac:(lia)) as (l & ->). cbn. eauto.
Qed.

Lemma vdot_total a : forall b, vdot a b = total (fun j => nth j a 0 * nth j b 0) (seq 0 (length a)).
Proof.
  induction a as [|x a IH]; intros b; [reflexivity|]. cbn [length seq total fold_right].
  rewrite <- seq_shift. change (fold_right (fun j s => nth j (x :: a) 0 * nth j b 0 + s) 0 (map S (seq 0 (length a))))
    with (total (fun j => nth j (x :: a) 0 * nth j b 0) (map S (seq 0 (length a)))).
  rewrite total_map. destruct b as [|y b]; cbn [vdot].
  - rewrite total_zero; [cbn; lra|]. intros j _. destruct j; cbn; lra.
  - rewrite IH. cbn [nth]. lra.
Qed.

Lemma vscale_nth k a i : nth i (vscale k a) 0 = k * nth i a 0.
Proof. unfold vscale. rewrite <- (map_nth (fun x => k * x)). f_equal. lra. Qed.
Lemma vscale_length k a : length (vscale k a) = length a.
Proof. apply map_length. Qed.

Lemma written_ok {A} (x : option A) a : written x = Ok a -> x = Some a.
Proof. destruct x; cbn; congruence. Qed.

Lemma Vars_ok y l z : Vars y l = Ok z -> length z = length l /\
  (forall j, (j < length l)%nat -> (nth j l 0%nat < length y)%nat /\ nth j z 0 = nth (nth j l 0%nat) y 0).
Proof.
  unfold Vars. revert z. induction l as [|v l IH]; intros z H; cbn in H.
  - injection H as <-. cbn. split; auto. intros; lia.
  - apply bind_ok in H as (x & E & H). apply bind_ok in H as (t & Et & H). injection H as <-.
    destruct (IH _ Et) as (H1 & H2). cbn [length]. split; [lia|]. apply idx_ok in E.
    intros [|j] Hj; cbn [nth].
    + split; [eapply nth_error_lt; eauto|]. symmetry. apply nth_error_nth_eq. auto.
    + apply H2. lia.
Qed.

Lemma nth_firstn_over {A} (l : list A) n i d : (n <= i)%nat -> nth i (firstn n l) d = d.
Proof. intros H. apply nth_overflow. rewrite firstn_length. lia. Qed.

Lemma slack_ok cols A b k y s : ComputeNegativeSlack cols A b k y = Ok s ->
  (cols <= length y)%nat /\ length s = length A /\ length b = length A /\
  forall i, (i < length A)%nat -> nth i s 0 = vdot (nth i A []) (firstn cols y) - k * nth i b 0.
Proof.
  unfold ComputeNegativeSlack. destruct (Nat.ltb_spec (length y) cols) as [|Hc]; [discriminate|]. intros H.
  apply zip_ok in H as (H1 & H2 & H3). rewrite vscale_length, map_length in *. split; auto. split; [lia|]. split; [lia|].
  intros i Hi. rewrite H3 by auto. rewrite vscale_nth. rewrite (nth_map_lt _ A i 0 []) by auto. reflexivity.
Qed.

(** The row product over the variables of the constraint. *)
Lemma slack_row cols a vars y z : length a = cols -> (cols <= length z)%nat -> Vars y vars = Ok z ->
  vdot a (firstn cols z) = row_value a vars y.
Proof.
  intros Hl Hc Hv. apply Vars_ok in Hv as (H1 & H2). rewrite vdot_total. unfold row_value. apply total_ext.
  intros j Hj. apply in_seq in Hj. rewrite nth_firstn_lt by lia. f_equal. apply H2. lia.
Qed.

Lemma fold_max_ge l : forall x, x <= fold_left Rmax l x /\ Forall (fun a => a <= fold_left Rmax l x) l.
Proof.
  induction l as [|a l IH]; intros x; cbn; [split; [lra|constructor]|].
  destruct (IH (Rmax x a)) as [H1 H2]. pose proof (Rmax_l x a). pose proof (Rmax_r x a). split; [lra|]. constructor; [lra|auto].
Qed.
Lemma fold_max_in l : forall x, fold_left Rmax l x = x \/ In (fold_left Rmax l x) l.
Proof.
  induction l as [|a l IH]; intros x; cbn; auto. destruct (IH (Rmax x a)) as [->|H]; [|tauto].
  unfold Rmax. destruct (Rle_dec x a); auto.
Qed.
Lemma maxCoeff_ok l m : maxCoeff l = Ok m -> In m l /\ Forall (fun a => a <= m) l.
Proof.
  destruct l as [|x l]; [discriminate|]. cbn. intros [= <-]. destruct (fold_max_ge l x) as [H1 H2].
  split; [|constructor; auto]. destruct (fold_max_in l x); auto.
Qed.

Lemma fold_min_le l : forall x, fold_left Rmin l x <= x /\ Forall (fun a => fold_left Rmin l x <= a) l.
Proof.
  induction l as [|a l IH]; intros x; cbn; [split; [lra|constructor]|].
  destruct (IH (Rmin x a)) as [H1 H2]. pose proof (Rmin_l x a). pose proof (Rmin_r x a). split; [lra|]. constructor; [lra|auto].
Qed.
Lemma fold_min_in l : forall x, fold_left Rmin l x = x \/ In (fold_left Rmin l x) l.
Proof.
  induction l as [|a l IH]; intros x; cbn; auto. destruct (IH (Rmin x a)) as [->|H]; [|tauto].
  unfold Rmin. destruct (Rle_dec x a); auto.
Qed.
Lemma minCoeff_ok l m : minCoeff l = Ok m -> In m l /\ Forall (fun a => m <= a) l.
Proof.
  destruct l as [|x l]; [discriminate|]. cbn. intros [= <-]. destruct (fold_min_le l x) as [H1 H2].
  split; [|constructor; auto]. destruct (fold_min_in l x); auto.
Qed.

(** What the step preparation of a linear constraint computes. *)
Lemma linear_prepare_ok cols A b w o y w' n q : op_affine o = false ->
  linear_prepare cols A b w o y = Ok (w', (n, q)) ->
  exists W d, lw_W w = Some W /\ lw_W w' = Some W /\ lw_t2 w' = Some d /\ (cols <= length y)%nat /\
    length W = length A /\ length d = length A /\ length b = length A /\
    (forall k, (k < length A)%nat ->
       nth k d 0 = nth k W 0 * (vdot (nth k A []) (firstn cols y) - op_c_weight o * nth k b 0) + op_e_weight o) /\
    (forall k, (k < length A)%nat -> Rabs (nth k d 0) <= n) /\ (exists k, (k < length A)%nat /\ n = Rabs (nth k d 0)) /\
    q = vdot d d.
Proof.
  intros Ho H. unfold linear_prepare in H. rewrite Ho in H.
  apply bind_ok in H as (W & EW & H). apply written_ok in EW. apply bind_ok in H as (s & Es & H).
  apply bind_ok in H as (e & Ee & H). apply bind_ok in H as (nn & En & H). injection H as <- <- <-.
  apply slack_ok in Es as (S1 & S2 & S3 & S4). apply zip_ok in Ee as (Z1 & Z2 & Z3).
  apply maxCoeff_ok in En as (M1 & M2). rewrite Forall_forall in M2.
  exists W, (map (fun x => x + op_e_weight o) e). cbn. rewrite map_length. repeat split; auto; try lia.
  - intros k Hk. rewrite (nth_map_lt _ e k 0 0) by lia. rewrite Z3 by lia. rewrite S4 by auto. lra.
  - intros k Hk. apply M2. apply in_map. apply nth_In. rewrite map_length. lia.
  - apply in_map_iff in M1 as (x & <- & Hx). apply (In_nth _ _ 0) in Hx as (k & Hk & E). rewrite map_length in Hk.
    exists k. rewrite E. split; auto; lia.
Qed.

Lemma linear_take_ok w o w' : op_affine o = false -> linear_take w o = Ok w' ->
  exists W d W', lw_W w = Some W /\ lw_t2 w = Some d /\ lw_W w' = Some W' /\ length d = length W /\ length W' = length W /\
    forall k, (k < length W)%nat -> nth k W' 0 = nth k W 0 * exp (op_step_size o * nth k d 0).
Proof.
  intros Ho H. unfold linear_take in H. rewrite Ho in H. apply bind_ok in H as (d & Ed & H). apply written_ok in Ed.
  apply bind_ok in H as (W & EW & H). apply written_ok in EW. apply bind_ok in H as (W' & Ez & H). injection H as <-.
  apply zip_ok in Ez as (Z1 & Z2 & Z3). exists W, d, W'. cbn.
  assert (length d = length W) as Hl.
  { rewrite map_length in Z1. destruct (Req_EM_T _ 1) in Z1; [auto|]. rewrite vscale_length in Z1. auto. }
  repeat split; auto. intros k Hk. rewrite Z3 by auto. f_equal.
  rewrite map_length in Z1. rewrite (nth_map_lt _ _ k 0 0) by lia. f_equal.
  destruct (Req_EM_T (op_step_size o) 1) as [->|]; [lra|]. apply vscale_nth.
Qed.

(** ** Frames *)

Inductive weight := WLin (W : list R) | WSpin (n : nat) (W : SocModel.spin) | WHerm (w : herm_ws).
Definition weight_of (s : cstate) : option weight :=
  match s with
  | SLinear w => option_map WLin (lw_W w)
  | SSoc w => option_map (WSpin (sw_n w)) (sw_W w)
  | SHerm w => Some (WHerm w)
  | _ => None
  end.
Definition weights (st : cst) : list (option weight) := map weight_of (ct_cons st).

Lemma set_con_weights st i s s' : nth_error (ct_cons st) i = Some s' -> weight_of s = weight_of s' ->
  weights (set_con st i s) = weights st.
Proof.
  unfold weights, set_con. cbn. intros H E. revert i H. induction (ct_cons st) as [|x l IH]; intros [|i] H; cbn in *; auto.
  - injection H as ->. congruence.
  - f_equal. auto.
Qed.

Lemma get_con_ok p st i c s : get_con p st i = Ok (c, s) -> nth_error (p_eqs p) i = Some c /\ nth_error (ct_cons st) i = Some s.
Proof.
  unfold get_con. destruct (nth_error (p_eqs p) i); [|discriminate]. destruct (nth_error (ct_cons st) i); [|discriminate].
  intros [= <- <-]. auto.
Qed.

(** Everything but the temporaries. *)
Record same_core (st st' : cst) : Prop := {
  sm_weights : weights st' = weights st;
  sm_mem : ct_mem st' = ct_mem st;
  sm_fact : ct_fact st' = ct_fact st;
  sm_sys : ct_sys st' = ct_sys st
}.
Lemma same_core_refl st : same_core st st.
Proof. constructor; auto. Qed.
Lemma same_core_trans a b c : same_core a b -> same_core b c -> same_core a c.
Proof. intros [] []. constructor; congruence. Qed.
Lemma set_con_core st i s s' : nth_error (ct_cons st) i = Some s' -> weight_of s = weight_of s' -> same_core st (set_con st i s).
Proof. intros. constructor; auto. eapply set_con_weights; eauto. Qed.

(** The solver and its vectors; preparing a step of a second-order cone replaces
    its scaling point. *)
Record same_solver (st st' : cst) : Prop := {
  sv_mem : ct_mem st' = ct_mem st;
  sv_fact : ct_fact st' = ct_fact st;
  sv_sys : ct_sys st' = ct_sys st
}.
Lemma same_solver_refl st : same_solver st st.
Proof. constructor; auto. Qed.
Lemma same_solver_trans a b c : same_solver a b -> same_solver b c -> same_solver a c.
Proof. intros [] []. constructor; congruence. Qed.

Lemma con_prepare_solver env p st i o y st' r : con_prepare env p st i o y = Ok (st', r) -> same_solver st st'.
Proof.
  intros H. unfold con_prepare in H. apply bind_ok in H as ([c s] & E & H). apply get_con_ok in E as [E1 E2].
  destruct (ct_data c) as [cols A b|n A b| | | | |A b]; destruct s; try discriminate.
  - apply bind_ok in H as ([w' [n q]] & E & H). injection H as <- _. constructor; auto.
  - apply bind_ok in H as (q & _ & H). apply bind_ok in H as ([q' r'] & _ & H). injection H as <- _. constructor; auto.
  - apply bind_ok in H as (q & _ & H). destruct (JordanModel.HPrepareStep _ _ _ _) as [q' [nsq|]]; injection H as <- _; constructor; auto.
  - injection H as <- _. apply same_solver_refl.
  - apply bind_ok in H as (l & E & H). injection H as <- _. constructor; auto.
Qed.

Lemma con_search_core p st i q y0 y1 st' r : con_search p st i q y0 y1 = Ok (st', r) -> same_core st st'.
Proof.
  intros H. unfold con_search in H. apply bind_ok in H as ([c s] & E & H). apply get_con_ok in E as [E1 E2].
  destruct (ct_data c) as [cols A b| | | | | |A b]; destruct s; try discriminate.
  - apply bind_ok in H as ([w' x] & E & H). injection H as <- _. eapply set_con_core; eauto. cbn.
    unfold linear_search in E. apply bind_ok in E as (W & EW & E). apply written_ok in EW.
    apply bind_ok in E as (s0 & _ & E). apply bind_ok in E as (e0 & _ & E). apply bind_ok in E as (s1 & _ & E).
    apply bind_ok in E as (e1 & _ & E). apply bind_ok in E as (d1 & _ & E). apply bind_ok in E as (x' & _ & E).
    injection E as <- _. cbn. rewrite EW. auto.
  - injection H as <- _. apply same_core_refl.
  - injection H as <- _. apply same_core_refl.
  - injection H as <- _. apply same_core_refl.
  - injection H as <- _. apply same_core_refl.
Qed.

Lemma con_spectrum_core env p st i y w st' r : con_spectrum env p st i y w = Ok (st', r) -> same_core st st'.
Proof.
  intros H. unfold con_spectrum in H. apply bind_ok in H as ([c s] & E & H). apply get_con_ok in E as [E1 E2].
  destruct (ct_data c) as [cols A b| | | | | |A b]; destruct s; try discriminate.
  - apply bind_ok in H as ([w' x] & E & H). injection H as <- _. eapply set_con_core; eauto. cbn.
    unfold linear_spectrum in E. apply bind_ok in E as (W & EW & E). apply written_ok in EW.
    apply bind_ok in E as (s0 & _ & E). apply bind_ok in E as (e0 & _ & E). apply bind_ok in E as (s1 & _ & E).
    apply bind_ok in E as (e1 & _ & E). injection E as <- _. cbn. rewrite EW. auto.
  - apply bind_ok in H as (q & _ & H). apply bind_ok in H as (r' & _ & H). injection H as <- _. apply same_core_refl.
  - apply bind_ok in H as (q & _ & H). destruct (JordanModel.HWeightedSlack _ _ _ _). destruct (env_estimate _ _ _ _ _ _) as [[lo hi]|]; injection H as <- _; constructor; auto.
  - injection H as <- _. apply same_core_refl.
  - injection H as <- _. apply same_core_refl.
Qed.

Lemma con_schur_weight c s s' q : con_schur c s = Ok (s', q) -> weight_of s' = weight_of s.
Proof.
  unfold con_schur. destruct (ct_data c) as [cols A b| | | | | |A b]; destruct s; try discriminate; intros H.
  - apply bind_ok in H as ([w' q'] & E & H). injection H as <- _. cbn.
    unfold linear_schur in E. apply bind_ok in E as (W & EW & E). apply written_ok in EW.
    apply bind_ok in E as (WA & _ & E). apply bind_ok in E as (WC & _ & E). destruct (_ <? _)%nat; [discriminate|].
    injection E as <- _. cbn. rewrite EW. auto.
  - apply bind_ok in H as (o & _ & H). apply bind_ok in H as (q' & _ & H). injection H as <- _. auto.
  - apply bind_ok in H as (o & _ & H). injection H as <- _. auto.
  - apply bind_ok in H as (q' & _ & H). injection H as <- _. auto.
  - apply bind_ok in H as (q' & _ & H). injection H as <- _. auto.
Qed.

(** ** The interior invariant *)

Definition weight_interior (x : weight) : Prop :=
  match x with
  | WLin W => Forall (fun x => 0 < x) W
  | WSpin n W => Spec_Soc.interior (Spec_Soc.euclid n) W
  | WHerm w => HermLinks.herm_inside w
  end.
Lemma weight_ok s : (forall x, weight_of s = Some x -> weight_interior x) <->
  match s with
  | SLinear w => forall W, lw_W w = Some W -> Forall (fun x => 0 < x) W
  | SSoc w => forall W, sw_W w = Some W -> Spec_Soc.interior (Spec_Soc.euclid (sw_n w)) W
  | SHerm w => HermLinks.herm_inside w
  | _ => True
  end.
Proof.
  destruct s as [w|l| |w|w|]; cbn; split; auto; try (intros; discriminate).
  - intros H W E. rewrite E in H. apply (H (WLin W)). reflexivity.
  - intros H x E. destruct (lw_W w) as [W|]; [|discriminate]. injection E as <-. cbn. auto.
  - intros H W E. rewrite E in H. apply (H (WSpin (sw_n w) W)). reflexivity.
  - intros H x E. destruct (sw_W w) as [W|]; [|discriminate]. injection E as <-. cbn. auto.
  - intros H. apply (H (WHerm w)). reflexivity.
  - intros H x [= <-]. exact H.
Qed.

Lemma interior_weights st : interior st <-> forall x, In (Some x) (weights st) -> weight_interior x.
Proof.
  unfold interior, weights. split; intros H.
  - intros x HW. apply in_map_iff in HW as (s & Hs & Hi). apply In_nth_error in Hi as (i & Hi).
    specialize (H _ _ Hi). rewrite <- weight_ok in H. auto.
  - intros i s Hi. rewrite <- weight_ok. intros x Hx. apply H. rewrite <- Hx. apply in_map. eapply nth_error_In; eauto.
Qed.
Lemma interior_linear st i w W : interior st -> nth_error (ct_cons st) i = Some (SLinear w) -> lw_W w = Some W -> Forall (fun x => 0 < x) W.
Proof. intros H E. exact (H _ _ E W). Qed.
Lemma interior_soc st i w W : interior st -> nth_error (ct_cons st) i = Some (SSoc w) -> sw_W w = Some W ->
  Spec_Soc.interior (Spec_Soc.euclid (sw_n w)) W.
Proof. intros H E. exact (H _ _ E W). Qed.
Lemma interior_herm st i w : interior st -> nth_error (ct_cons st) i = Some (SHerm w) -> HermLinks.herm_inside w.
Proof. intros H E. exact (H _ _ E). Qed.
(** An environment. *)
Definition some_env : environment := mkEnv (fun _ _ => 0) (fun _ _ _ _ _ => None) (fun _ _ b => b).

Lemma interior_core st st' : same_core st st' -> interior st -> interior st'.
Proof. intros [E _ _ _] H. apply interior_weights. rewrite E. apply interior_weights. auto. Qed.

Lemma interior_set st i s : interior st -> (forall x, weight_of s = Some x -> weight_interior x) -> interior (set_con st i s).
Proof.
  unfold interior, set_con. cbn. intros H Hs k s' E. destruct (Nat.eq_dec i k) as [->|Hn].
  - destruct (le_lt_dec (length (ct_cons st)) k) as [Hl|Hl].
    + rewrite upd_oob in E by auto. eapply H; eauto.
    + rewrite nth_error_upd_eq in E by auto. injection E as <-. apply weight_ok. auto.
  - rewrite nth_error_upd_neq in E by auto. eapply H; eauto.
Qed.

Lemma mapM_nth {A B} (f : A -> res B) l bs i a : mapM f l = Ok bs -> nth_error l i = Some a ->
  exists b, nth_error bs i = Some b /\ f a = Ok b.
Proof.
  revert bs i. induction l as [|x l IH]; intros bs i H Hi; [destruct i; discriminate|]. cbn in H.
  apply bind_ok in H as (b & Eb & H). apply bind_ok in H as (t & Et & H). injection H as <-.
  destruct i; cbn in *; [injection Hi as ->; eauto|eauto].
Qed.
Lemma mapM_length {A B} (f : A -> res B) l bs : mapM f l = Ok bs -> length bs = length l.
Proof.
  revert bs. induction l as [|x l IH]; intros bs H; cbn in H; [injection H as <-; auto|].
  apply bind_ok in H as (b & Eb & H). apply bind_ok in H as (t & Et & H). injection H as <-. cbn. f_equal. auto.
Qed.

(** What assembling does. *)
Lemma con_assemble_ok iters nf p st st' : con_assemble p st = Ok st' ->
  exists cliques duals d o bs q, p_solver p = Some (cliques, duals) /\ build cliques duals = Ok (d, o, bs) /\
    length q = length (p_eqs p) /\
    (forall i c, nth_error (p_eqs p) i = Some c -> exists s, nth_error (ct_cons st) i = Some s /\
       con_schur c s = Ok (nth i q (SOther, mkSchur (fun _ _ => 0) (mkRhs [] [] 0 0)))) /\
    AssembleSchurComplementResiduals (p_sys p) (p_cliques p) (map (fun x => sc_rhs (snd x)) q) = Ok (ct_sys st') /\
    ct_cons st' = map fst q /\
    ct_mem st' = Assemble R 0 Rplus bs (d_order d) (fun i => sc_G (snd (nth i q (SOther, mkSchur (fun _ _ => 0) (mkRhs [] [] 0 0))))) (ct_mem st) /\
    bk_assemble (conex iters nf) p st = Ok st'.
Proof.
  intros H. pose proof H as H0. unfold con_assemble, with_solver in H. destruct (p_solver p) as [[cliques duals]|] eqn:Es; [|discriminate].
  apply bind_ok in H as ([[d o] bs] & Eb & H). apply bind_ok in H as (q & Eq & H). apply bind_ok in H as (sys & Ey & H).
  injection H as <-. exists cliques, duals, d, o, bs, q. split; auto. split; auto.
  pose proof (mapM_length _ _ _ Eq) as Hl. rewrite seq_length in Hl. split; auto. split; [|cbn; auto].
  intros i c Hi. pose proof (nth_error_lt _ _ _ Hi) as Hi'.
  destruct (mapM_nth _ _ _ i i Eq) as (b & E1 & E2).
  { rewrite (nth_error_nth' _ 0%nat) by (rewrite seq_length; auto). rewrite seq_nth; auto. }
  apply bind_ok in E2 as ([c' s] & E3 & E2). apply get_con_ok in E3 as [E3 E4]. rewrite Hi in E3. injection E3 as <-.
  exists s. split; auto. rewrite (nth_error_nth_eq _ _ _ _ E1). auto.
Qed.

Lemma con_assemble_weights p st st' : con_assemble p st = Ok st' ->
  forall W, In (Some W) (weights st') -> In (Some W) (weights st).
Proof.
  intros H W HW. apply (con_assemble_ok (Refine 0) some_env) in H as (cl & du & d & o & bs & q & _ & _ & Hl & Hq & _ & Hc & _).
  unfold weights in *. rewrite Hc, map_map in HW. apply in_map_iff in HW as (x & Hx & Hi).
  apply (In_nth _ _ (SOther, mkSchur (fun _ _ => 0) (mkRhs [] [] 0 0))) in Hi as (i & Hi & Ex).
  rewrite Hl in Hi. destruct (nth_error (p_eqs p) i) as [c|] eqn:Ec; [|apply nth_error_None in Ec; lia].
  destruct (Hq i c Ec) as (s & Es & E). rewrite Ex in E. destruct x as [s' sc]. apply con_schur_weight in E. cbn in Hx.
  rewrite <- Hx, E. apply in_map. eapply nth_error_In; eauto.
Qed.

Lemma con_factor_core iters p st st' ok : con_factor iters p st = Ok (st', ok) ->
  ct_cons st' = ct_cons st /\ ct_sys st' = ct_sys st.
Proof.
  unfold con_factor, with_solver. destruct (p_solver p) as [[cl du]|]; [|discriminate]. intros H.
  apply bind_ok in H as ([[d o] bs] & _ & H). destruct iters as [iters|f].
  - apply bind_ok in H as (r & _ & H). destruct r as [FK|]; injection H as <- _; auto.
  - apply bind_ok in H as (K & _ & H). injection H as <- _; auto.
Qed.

Lemma interior_keeps iters nf p : keeps (conex iters nf) interior p.
Proof.
  constructor; cbn [bk_state bk_assemble bk_factor bk_identity bk_prepare bk_take bk_search bk_spectrum conex].
  - intros st st' H E. apply interior_weights. rewrite interior_weights in H. intros W HW. apply H.
    eapply con_assemble_weights; eauto.
  - intros st st' ok H E. apply con_factor_core in E as [E _]. unfold interior in *. rewrite E. auto.
  - intros st i H. unfold con_identity. destruct (get_con p st i) as [[c s]| | |]; auto.
    destruct (ct_data c) as [cols A b|n A b| | | | |A b]; auto; destruct s as [w|l| |w|w|]; auto.
    + apply interior_set; auto. cbn. intros W [= <-]. cbn.
      apply Forall_forall. intros x Hx. apply repeat_spec in Hx. lra.
    + destruct (_ || _); auto. apply interior_set; auto. cbn. intros W [= <-]. cbn.
      apply (SocProofs.one_interior n). apply SocAlgebra.euclid_form.
    + destruct (_ && _) eqn:Eh; auto. apply andb_true_iff in Eh as [_ Eh]. apply HermLinks.algebra_ok in Eh as (k & Hk & ->).
      apply interior_set; auto. cbn [weight_of]. intros x [= <-]. cbn [weight_interior]. apply HermLinks.identity_inside; auto.
  - intros st i o y st' r Ho H E. unfold con_prepare in E. apply bind_ok in E as ([c s] & Eg & E). apply get_con_ok in Eg as [E1 E2].
    destruct (ct_data c) as [cols A b|n A b| | | | |A b]; destruct s as [w|l| |w|w|]; try discriminate.
    + apply bind_ok in E as ([w' [n q]] & E & E'). injection E' as <- _. apply interior_set; auto. cbn.
      apply linear_prepare_ok in E as (W & d & P1 & P2 & _); auto. rewrite P2. intros x [= <-]. cbn.
      exact (interior_linear _ _ _ _ H E2 P1).
    + apply bind_ok in E as (q & Eq & E). apply bind_ok in E as ([q' r'] & Ep & E). injection E as <- _.
      destruct (SocLinks.soc_prepared _ _ _ _ _ _ _ _ _ Eq Ep) as (w' & d & Em & Hw & _). apply interior_set; auto. rewrite Em.
      apply weight_ok. intros W HW. eapply SocLinks.soc_stepped_interior; eauto. intros W0 HW0. exact (interior_soc _ _ _ _ H E2 HW0).
    + apply bind_ok in E as (q & Eq & E).
      destruct (HermLinks.herm_prepared _ _ _ _ _ _ _ (herm_options o) Eq (interior_herm _ _ _ H E2) Ho) as (w' & D & q' & Ep & Em & _ & _ & _ & Hw).
      rewrite Ep, Em in E. injection E as <- _. apply (interior_set st i (SHerm w')); auto. cbn [weight_of]. intros x [= <-]. exact Hw.
    + injection E as <- _. auto.
    + apply bind_ok in E as (l' & _ & E). injection E as <- _. apply interior_set; auto. cbn. discriminate.
  - intros st i o st' Ho H E. unfold con_take in E. apply bind_ok in E as ([c s] & Eg & E). apply get_con_ok in Eg as [E1 E2].
    destruct (ct_data c) as [cols A b|n A b| | | | |A b]; destruct s as [w|l| |w|w|]; try discriminate; try (injection E as <-; auto).
    + apply bind_ok in E as (w' & Et & E). injection E as <-. apply interior_set; auto. cbn.
      apply linear_take_ok in Et as (W & d & W'' & T1 & T2 & T3 & T4 & T5 & T6); auto.
      rewrite T3. intros x [= <-]. cbn. pose proof (interior_linear _ _ _ _ H E2 T1) as HP. rewrite Forall_forall in HP.
      apply Forall_forall. intros x Hx. apply (In_nth _ _ 0) in Hx as (k & Hk & <-). rewrite T6 by lia.
      apply Rmult_lt_0_compat; [|apply exp_pos]. apply HP. apply nth_In. lia.
    + apply bind_ok in E as (d & _ & E). apply bind_ok in E as (q & Eq & E). injection E as <-.
      destruct (SocLinks.soc_taken _ _ _ _ _ _ (op_step_size o) Eq) as (W & W' & d' & T1 & T2 & T3 & T4).
      apply interior_set; auto. rewrite T3. cbn. intros x [= <-]. cbn. apply T4. rewrite <- T2. exact (interior_soc _ _ _ _ H E2 T1).
    + apply bind_ok in E as (WS & _ & E). apply bind_ok in E as (q & Eq & E). apply bind_ok in E as (q' & Et & E). injection E as <-.
      destruct (HermLinks.herm_taken _ _ _ _ _ _ (herm_options o) true Eq (interior_herm _ _ _ H E2)) as (o' & w' & T1 & T2 & T3 & _).
      rewrite Et in T1. injection T1 as <-. rewrite T2. apply interior_set; auto. cbn [weight_of]. intros x [= <-]. exact T3.
  - intros st i q y0 y1 st' r H E. eapply interior_core; eauto. eapply con_search_core; eauto.
  - intros st i y w st' r H E. eapply interior_core; eauto. eapply con_spectrum_core; eauto.
Qed.

Lemma interior_fresh p st : interior (con_initialize p st).
Proof.
  unfold interior, con_initialize. cbn. intros i s H. apply nth_error_In in H. apply in_map_iff in H as (c & <- & _).
  destruct (ct_data c); cbn; auto; discriminate.
Qed.

Lemma initial_interior iters nf p p2 n c : (reinitialises p c \/ interior (nm_bk n)) ->
  interior (nm_bk (Initialize_numeric (conex iters nf) (clear p) p2 (initialization_mode c =? 0)%Z (Z.to_nat (max_iterations c)) n)).
Proof.
  intros H. unfold Initialize_numeric. cbn [clear set_status p_init].
  destruct (negb (p_init p) || (initialization_mode c =? 0)%Z) eqn:E.
  - cbn [bk_initialize conex]. destruct (initialization_mode c =? 0)%Z; cbn [nm_bk].
    + apply (keep_identity (conex iters nf) interior p2 (interior_keeps iters nf p2)). apply interior_fresh.
    + apply interior_fresh.
  - apply orb_false_iff in E as [E1 E2]. destruct H as [[H|H]|H]; auto.
    + rewrite H in E1. discriminate.
    + rewrite H in E2. discriminate.
Qed.
