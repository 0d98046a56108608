(** Cold-started solves complete (C53). *)
From Coq Require Import List Arith ZArith Reals Bool Lia Lra.
From Verif Require Import Base BaseFacts LayoutModel SupernodeModel TriWorkspaceModel AssemblerModel DenseModel BlockModel KktModel
  ProgramModel ApiModel DivergenceModel SolveModel LinearModel ConcreteBackend Spec_Linear Spec_Assembly RhsProofs Spec_Program Spec_Solve Spec_Conex
  SymbolicFacts KktProofs LinearFacts SolveProofs SolveFacts SolveStats SolveLast Prop_Solve ConexFacts ConexStep ConexKkt ConexDefinite ConexRegular.
From Verif Require Import SocLinks.
From Verif Require Spec_Soc SocAlgebra SocProofs HermLinks.
Import ListNotations.
Open Scope R_scope.

Definition shape_ok (co : container) (s : cstate) : Prop :=
  match ct_data co, s with
  | CLinear _ A _, SLinear w => exists W, lw_W w = Some W /\ length W = length A /\ Forall (fun x => x <> 0) W
  | CEq _ _, SEq _ => True
  | CQuad _, SQuad => True
  | CSoc n _ _, SSoc w => sw_n w = n /\ exists W, sw_W w = Some W /\ Spec_Soc.interior (Spec_Soc.euclid n) W
  | CHerm h n _ _, SHerm w => hw_h w = h /\ hw_n w = n /\ (exists W, hw_W w = Some W) /\ HermLinks.herm_inside w
  | _, _ => False
  end.
Definition primed (co : container) (s : cstate) : Prop :=
  match ct_data co, s with
  | CLinear _ A _, SLinear w => exists d, lw_t2 w = Some d /\ length d = length A
  | CSoc _ _ _, SSoc w => exists d, sw_d w = Some d
  | CHerm _ _ _ _, SHerm w => exists d, hw_WS w = Some d
  | _, _ => True
  end.
Definition shaped (P : container -> cstate -> Prop) (p : program) (st : cst) : Prop :=
  length (ct_cons st) = length (p_eqs p) /\
  forall i co s, nth_error (p_eqs p) i = Some co -> nth_error (ct_cons st) i = Some s -> P co s.

Lemma shaped_set P p st i co s : shaped P p st -> nth_error (p_eqs p) i = Some co -> P co s -> shaped P p (set_con st i s).
Proof.
  intros [H1 H2] Hi Hs. split; [cbn; rewrite upd_length; auto|]. intros k co' s' Hk Hk'. cbn in Hk'.
  destruct (Nat.eq_dec i k) as [->|Hn].
  - rewrite nth_error_upd_eq in Hk' by (rewrite H1; eapply nth_error_lt; eauto). injection Hk' as <-. congruence.
  - rewrite nth_error_upd_neq in Hk' by auto. eauto.
Qed.

Lemma shaped_cons P p st st' : ct_cons st' = ct_cons st -> shaped P p st -> shaped P p st'.
Proof. intros E [H1 H2]. split; rewrite E; auto. Qed.

Lemma shaped_get P p st i : shaped P p st -> (i < length (p_eqs p))%nat ->
  exists co s, nth_error (p_eqs p) i = Some co /\ nth_error (ct_cons st) i = Some s /\ get_con p st i = Ok (co, s) /\ P co s.
Proof.
  intros [H1 H2] Hi. destruct (nth_error (p_eqs p) i) as [co|] eqn:E1; [|apply nth_error_None in E1; lia].
  destruct (nth_error (ct_cons st) i) as [s|] eqn:E2; [|apply nth_error_None in E2; lia].
  exists co, s. split; auto. split; auto. split; [unfold get_con; rewrite E1, E2; auto|eauto].
Qed.

Lemma Vars_total y l : (forall v, In v l -> (v < length y)%nat) -> exists z, Vars y l = Ok z /\ length z = length l.
Proof.
  unfold Vars. induction l as [|v l IH]; intros H; cbn [mapM]; [eexists; split; eauto|].
  destruct (nth_error y v) as [x|] eqn:E; [|apply nth_error_None in E; specialize (H v (or_introl eq_refl)); lia].
  assert (idx y v = Ok x) as -> by (unfold idx; rewrite E; auto). cbn [bind].
  destruct IH as (z & Ez & Hz); [intros; apply H; right; auto|]. rewrite Ez. cbn [bind]. eexists. split; eauto. cbn. lia.
Qed.

Lemma slack_total cols A b k y : (cols <= length y)%nat -> length b = length A -> exists s, ComputeNegativeSlack cols A b k y = Ok s /\ length s = length A.
Proof.
  intros H1 H2. unfold ComputeNegativeSlack. destruct (Nat.ltb_spec (length y) cols); [lia|].
  destruct (zip_total Rminus (map (fun a => vdot a (firstn cols y)) A) (vscale k b)) as (s & E); [rewrite vscale_length, map_length; auto|].
  exists s. split; [exact E|]. apply zip_ok in E as (_ & E & _). rewrite map_length in E. auto.
Qed.
Lemma max_total l : l <> [] -> exists x, maxCoeff l = Ok x.
Proof. intros H. destruct l; [congruence|]. cbn. eauto. Qed.
Lemma min_total l : l <> [] -> exists x, minCoeff l = Ok x.
Proof. intros H. destruct l; [congruence|]. cbn. eauto. Qed.
Lemma nonempty_length {A B} (a : list A) (b : list B) : length a = length b -> b <> [] -> a <> [].
Proof. destruct a, b; cbn; congruence. Qed.
Lemma zip_total' f a b : length b = length a -> exists l, zip_ f a b = Ok l /\ length l = length a.
Proof. intros H. destruct (zip_total f a b H) as (l & E). exists l. split; auto. apply zip_ok in E. tauto. Qed.

Lemma zip_nonzero a b l : zip_ Rmult a b = Ok l -> Forall (fun x => x <> 0) a -> Forall (fun x => x <> 0) b -> Forall (fun x => x <> 0) l.
Proof.
  intros H Ha Hb. apply zip_ok in H as (H1 & H2 & H3). apply Forall_forall. intros x Hx. apply (In_nth _ _ 0) in Hx as (k & Hk & <-).
  rewrite H3 by lia. rewrite Forall_forall in Ha, Hb. apply Rmult_integral_contrapositive_currified; [apply Ha|apply Hb]; apply nth_In; lia.
Qed.

Lemma herm_total h n As C w m : (0 < n)%nat /\ (h = 1 \/ h = 2 \/ h = 4)%nat /\ length As = m /\ Forall (hermitian_entries h n) (C :: As) ->
  hw_h w = h /\ hw_n w = n /\ (exists W, hw_W w = Some W) /\ HermLinks.herm_inside w -> exists o, herm_ready h n As C w m = Ok o.
Proof.
  intros (H1 & H2 & H3 & H4) (S1 & S2 & (W & S3) & _). assert (exists k, (k <= 2)%nat /\ h = (2 ^ k)%nat) as (k & Hk & ->).
  { destruct H2 as [->|[->| ->]]; [exists 0%nat|exists 1%nat|exists 2%nat]; auto. }
  eexists. apply (HermLinks.herm_ready_total k n As C w m W); auto. intros ->. inversion H4 as [|? ? (E & _) _]. cbn in E. pose proof (Nat.pow_nonzero 2 k). lia.
Qed.

Lemma schur_total co s : (match ct_data co with
  | CLinear cols A b => A <> [] /\ length b = length A /\ (cols <= ct_vars co)%nat
  | CEq A b => length b = length A /\ (length A <= ct_vars co)%nat /\ (mcols A <= ct_vars co)%nat
  | CQuad Q => (length Q <= ct_vars co)%nat /\ (mcols Q <= ct_vars co)%nat
  | CSoc n A c => (0 < n)%nat /\ length A = ct_vars co /\ c <> []
  | CHerm h n As C => (0 < n)%nat /\ (h = 1 \/ h = 2 \/ h = 4)%nat /\ length As = ct_vars co /\ Forall (hermitian_entries h n) (C :: As)
  | _ => False
  end) -> shape_ok co s -> exists s' q, con_schur co s = Ok (s', q) /\ shape_ok co s'.
Proof.
  intros HC HS. unfold con_schur, shape_ok in *. destruct (ct_data co) as [cols A b|n A b|h n As C| | |Q|A b]; destruct s as [w|l| |w|w|]; try tauto.
  - destruct HS as (W & HW & HL & HnW). destruct HC as (H1 & H2 & H3). unfold linear_schur. rewrite HW. cbn [written bind].
    rewrite HL, Nat.eqb_refl. cbn [bind]. destruct (zip_total' Rmult W b) as (WC & E & _); [congruence|]. rewrite E. cbn [bind].
    destruct (Nat.ltb_spec (ct_vars co) cols); [lia|]. cbn [bind]. eexists _, _. split; [reflexivity|]. cbn. eauto.
  - destruct HS as (Hn & W & HW & HI). destruct HC as (H1 & H2 & H3).
    destruct (soc_schur_total n A b w (ct_vars co) W HW H1 Hn H2 H3 (SocProofs.interior_cone _ _ HI)) as (o & q & -> & E2). cbn [bind]. rewrite E2. cbn [bind].
    eexists _, _. split; [reflexivity|]. cbn. eauto.
  - destruct (herm_total h n As C w (ct_vars co) HC HS) as (o & ->). cbn [bind]. eexists _, _. split; [reflexivity|]. exact HS.
  - destruct HC as [H1 H2]. unfold quadratic_schur. destruct (Nat.ltb_spec (ct_vars co) (length Q)); [lia|]. destruct (Nat.ltb_spec (ct_vars co) (mcols Q)); [lia|].
    cbn [orb bind]. eexists _, _. split; [reflexivity|]. auto.
  - destruct HC as (H1 & H2 & H3). unfold equality_schur. destruct (Nat.ltb_spec (ct_vars co) (length A)); [lia|]. destruct (Nat.ltb_spec (ct_vars co) (mcols A)); [lia|].
    rewrite H1, Nat.eqb_refl. cbn [orb negb bind]. eexists _, _. split; [reflexivity|]. auto.
Qed.

Lemma mapM_all {A B} (f : A -> res B) l : (forall a, In a l -> exists b, f a = Ok b) -> exists bs, mapM f l = Ok bs.
Proof.
  induction l as [|a l IH]; intros H; cbn; [eauto|]. destruct (H a (or_introl eq_refl)) as (b & ->). cbn.
  destruct IH as (bs & ->); [intros; apply H; right; auto|]. cbn. eauto.
Qed.

Lemma shaped_core p st st' : same_core st st' -> length (ct_cons st') = length (ct_cons st) ->
  shaped (fun _ _ => True) p st -> shaped (fun _ _ => True) p st'.
Proof. intros _ H [H1 H2]. split; auto. congruence. Qed.

Lemma qr_factored f p st st1 ok : con_factor (Qr f) p st = Ok (st1, ok) -> ok = true.
Proof.
  unfold con_factor, with_solver. destruct (p_solver p) as [[c du]|]; [|discriminate]. intros E.
  apply bind_ok in E as ([[d o] bs] & _ & E). apply bind_ok in E as (K & _ & E). congruence.
Qed.

Section Total.
  Variable iters : solver_mode.
  Variable nf : environment.
  Variable p : program.
  Hypothesis HR : ready p.
  Hypothesis HC : consistent p.
  Hypothesis HL : listed p.
  Hypothesis HQR : forall f, iters = Qr f -> rectangular p /\ regular p /\ qr_solves f.
  Notation N := (SizeOfKKTSystem p).
  Notation cl i := (nth i (p_cliques p) []).
  Notation good := (shaped shape_ok p).

  Lemma vars_of i : (i < length (p_eqs p))%nat -> forall v, In v (cl i) -> (v < N)%nat.
  Proof. intros Hi v Hv. apply (ready_range p (cl i)); auto. apply nth_in_cliques; auto. Qed.

  Lemma clique_at i y : (i < length (p_eqs p))%nat -> length y = N ->
    exists z, at_ (p_cliques p) i = Ok (cl i) /\ Vars y (cl i) = Ok z /\ length z = length (cl i).
  Proof.
    intros Hi Hy. destruct (Vars_total y (cl i)) as (z & E & Hz); [intros v Hv; rewrite Hy; eapply vars_of; eauto|].
    exists z. split; auto. unfold at_. rewrite (nth_error_nth' _ []) by (rewrite (wb_lengths _ (rd_built _ HR)); auto). auto.
  Qed.

  Lemma vars_number i co : nth_error (p_eqs p) i = Some co -> ct_vars co = length (cl i).
  Proof. apply (wb_vars _ (rd_built _ HR)). Qed.

  Lemma assemble_total st : good st -> exists st0, con_assemble p st = Ok st0 /\ good st0 /\
    length (r_AW (ct_sys st0)) = N /\ length (r_AQc (ct_sys st0)) = N.
  Proof.
    intros G. assert (exists st0, con_assemble p st = Ok st0) as (st0 & E0).
    { unfold con_assemble, with_solver. rewrite (rd_solver _ HR).
      destruct (kkt_dimension _ _ (wb_admissible _ (rd_built _ HR))) as (d & o & bs & Eb & _). rewrite Eb. cbn [bind].
      destruct (mapM_all (fun i => '(c, s) <- get_con p st i ;; con_schur c s) (seq 0 (length (p_eqs p)))) as (q & Eq).
      { intros i Hi. apply in_seq in Hi. destruct (shaped_get _ _ _ i G ltac:(lia)) as (co & s & H1 & H2 & -> & H3). cbn [bind].
        destruct (schur_total co s (HC i co H1) H3) as (s' & q & -> & _). eauto. }
      rewrite Eq. cbn [bind]. rewrite (rd_sys _ HR).
      pose proof (mapM_length _ _ _ Eq) as Hlq. rewrite seq_length in Hlq.
      destruct (residuals_ok N (p_cliques p) (map (fun x => sc_rhs (snd x)) q)) as (sys & -> & _).
      - rewrite map_length, (wb_lengths _ (rd_built _ HR)). auto.
      - intros c v. apply (ready_range p). auto.
      - intros i ci Hi. rewrite nth_error_map in Hi. destruct (nth_error q i) as [[s' sc]|] eqn:Eqi; [|discriminate]. injection Hi as <-.
        pose proof (nth_error_lt _ _ _ Eqi) as Hlt.
        destruct (mapM_nth _ _ _ i i Eq) as (b & E1 & E2).
        { rewrite (nth_error_nth' _ 0%nat) by (rewrite seq_length; lia). rewrite seq_nth by lia. auto. }
        rewrite Eqi in E1. injection E1 as <-. apply bind_ok in E2 as ([c' s] & E3 & E2). apply get_con_ok in E3 as [E3 _].
        rewrite <- (vars_number i c' E3). cbn [snd]. eapply con_schur_sizes; eauto.
      - cbn [bind]. eauto. }
    exists st0. split; auto. destruct (assembled p st st0 HR E0) as (q & [L1 L2] & Q2 & Q3 & Q4 & _). split; auto.
    split; [rewrite Q2, map_length; auto|]. intros i co s Hi Hs. rewrite Q2, nth_error_map in Hs.
    destruct (nth_error q i) as [[s' sc]|] eqn:Eq; [|discriminate]. injection Hs as <-. cbn.
    destruct (L2 i co Hi) as (s & Es & Ec). rewrite (nth_error_nth_eq _ _ _ _ Eq) in Ec.
    destruct (schur_total co s (HC i co Hi) (proj2 G i co s Hi Es)) as (s2 & q2 & E2 & H2). rewrite E2 in Ec. injection Ec as -> _. auto.
  Qed.

  Lemma good_nonzero st : good st -> nonzero_weights st.
  Proof.
    intros [G1 G2]. split; [|split]; [intros i w W Hi HW|intros i w W Hi HW|intros i w Hi]; (destruct (nth_error (p_eqs p) i) as [co|] eqn:E; [|apply nth_error_None in E; apply nth_error_lt in Hi; lia]);
    specialize (G2 i co _ E Hi); unfold shape_ok in G2; destruct (ct_data co); try tauto.
    - destruct G2 as (W' & H1 & _ & H2). congruence.
    - destruct G2 as (Hn & W' & H1 & H2). rewrite Hn. congruence.
  Qed.

  Lemma factor_ok st st0 : good st -> con_assemble p st = Ok st0 -> exists st1 ok, con_factor iters p st0 = Ok (st1, ok) /\
    (rectangular p -> factorable p \/ (exists f, iters = Qr f) -> ok = true) /\
    (ok = true -> forall st2 r, ct_fact st2 = ct_fact st1 -> length r = N -> exists y, con_solve iters p st2 r = Ok y /\ length y = N).
  Proof.
    intros G E0. destruct (assembled p st st0 HR E0) as (q & Q1 & _ & _ & _ & _ & _ & _ & _ & Q9).
    assert (exists st1 ok, con_factor iters p st0 = Ok (st1, ok)) as (st1 & ok & E1).
    { unfold con_factor, with_solver. rewrite (rd_solver _ HR).
      destruct (kkt_dimension _ _ (wb_admissible _ (rd_built _ HR))) as (d & o & bs & Eb & _). rewrite Eb. cbn [bind].
      destruct iters as [iters0|f].
      2: { pose proof (wb_covered _ (rd_built _ HR)) as HCV. rewrite <- (covered_N _ _ _ _ _ _ (wb_admissible _ (rd_built _ HR)) Eb HCV) in HCV.
        destruct (dense_kkt_ok _ _ _ _ _ (wb_admissible _ (rd_built _ HR)) Eb HCV (ct_mem st0)) as (K & -> & _). cbn [bind]. eauto. }
      destruct (factor_total _ _ N d o bs (wb_admissible _ (rd_built _ HR)) Eb (wb_covered _ (rd_built _ HR)) (ct_mem st0) iters0) as (r & ->).
      cbn [bind]. destruct r; eauto. }
    exists st1, ok. split; auto. split; [intros T [F|(f & ->)]; [exact (factor_never_fails _ _ _ _ _ _ HR T F (good_nonzero _ G) E0 E1)|exact (qr_factored _ _ _ _ _ E1)]|]. intros ->. destruct (solved_system iters p st st0 q st1 HR E0 Q1 Q9 E1) as (E & _ & _ & _ & _ & S4 & S5).
    intros st2 r Hf Hr. assert (forall f, iters = Qr f -> nonsingular N (matrix_of p q) /\ qr_solves f) as HQ'.
    { intros f Hi. destruct (HQR f Hi) as (T & D & HS). split; auto. exact (matrix_nonsingular p HR T D st q Q1 (good_nonzero _ G)). }
    destruct (S5 HQ' st2 r Hf Hr) as (y & Ey). exists y. split; auto. destruct (S4 st2 r y Hf Ey) as (_ & H & _). auto.
  Qed.

  (** One constraint. *)
  Lemma prepare_one st i o z : good st -> (i < length (p_eqs p))%nat -> op_affine o = false -> length z = length (cl i) ->
    exists st' r co s', con_prepare nf p st i o z = Ok (st', r) /\ ct_cons st' = upd (ct_cons st) i s' /\ nth_error (p_eqs p) i = Some co /\ shape_ok co s' /\ primed co s'.
  Proof.
    intros G Hi Ho Hz. destruct (shaped_get _ _ _ i G Hi) as (co & s & H1 & H2 & H3 & H4). unfold con_prepare. rewrite H3. cbn [bind].
    pose proof (HC i co H1) as HCi. rewrite (vars_number i co H1) in HCi. pose proof H4 as H4'. unfold shape_ok in H4.
    destruct (ct_data co) as [cols A b|n A b|h n As C| | |Q|A b] eqn:Ed; destruct s as [w|l| |w|w|]; try tauto.
    - destruct HCi as (C1 & C2 & C3). destruct H4 as (W & HW & HlW & HnW). unfold linear_prepare. rewrite Ho, HW. cbn [written bind].
      destruct (slack_total cols A b (op_c_weight o) z ltac:(lia) C2) as (sl & -> & Hsl). cbn [bind].
      destruct (zip_total' Rmult sl W ltac:(lia)) as (e & -> & He). cbn [bind].
      destruct (max_total (map Rabs (map (fun x => x + op_e_weight o) e))) as (m & ->).
      { apply (nonempty_length _ A); auto. rewrite !map_length. lia. }
      cbn [bind]. eexists _, _, co, _. split; [reflexivity|]. split; [reflexivity|]. split; auto. unfold shape_ok, primed. rewrite Ed. cbn.
      split; [eauto|]. eexists. split; [reflexivity|]. rewrite map_length. lia.
    - destruct HCi as (C1 & C2 & C3). destruct H4 as (Hn & W & HW & HI).
      destruct (soc_prepare_total n A b w (op_c_weight o) z W HW C1 Hn ltac:(congruence) C3 (SocProofs.interior_cone _ _ HI)) as (q0 & q & r & Eq & Er).
      rewrite Eq. cbn [bind]. rewrite Er. cbn [bind]. destruct (soc_prepared _ _ _ _ _ _ _ _ _ Eq Er) as (w' & d & Em & Hst & _). rewrite Em.
      eexists _, _, co, _. split; [reflexivity|]. split; [reflexivity|]. split; auto. unfold shape_ok, primed. rewrite Ed.
      pose proof (soc_stepped_interior _ _ _ _ _ _ _ _ Hst) as HI'. destruct Hst as (W0 & sq & E0 & _ & _ & _ & _ & _ & _ & _ & ->). cbn [sw_n sw_W sw_d] in *.
      split; [|eauto]. split; auto. exists sq. split; auto. apply HI'; auto. intros W1 HW1. rewrite Hn. congruence.
    - destruct (herm_total h n As C w (length z)) as (q0 & Eq); [rewrite Hz; exact HCi|exact H4|]. rewrite Eq. cbn [bind].
      destruct H4 as (S1 & S2 & S3 & S4).
      destruct (HermLinks.herm_prepared h n As C w z q0 (herm_options o) Eq S4 Ho) as (w' & D & q' & E1 & E2 & _ & _ & Hst & HI'). rewrite E1, E2.
      eexists _, _, co, (SHerm w'). split; [reflexivity|]. split; [reflexivity|]. split; auto. unfold shape_ok, primed. rewrite Ed.
      destruct Hst as (k & W & G0 & _ & _ & _ & _ & _ & _ & _ & _ & _ & _ & _ & _ & _ & ->). cbn [hw_h hw_n hw_W hw_WS]. eauto 10.
    - exists st, (0, 0), co, SQuad. split; auto. split.
      { destruct st as [cons mem f sys dr]. cbn in *. clear - H2. revert i H2. induction cons as [|a cons IH]; intros [|i] H; cbn in *; try discriminate; [injection H as ->; auto|f_equal; eauto]. }
      unfold shape_ok, primed. rewrite Ed. auto.
    - destruct HCi as (C1 & C2 & C3). unfold equality_prepare. destruct (Nat.ltb_spec (length z) (length b)); [lia|]. cbn [bind].
      eexists _, _, co, _. split; [reflexivity|]. split; [reflexivity|]. split; auto. unfold shape_ok, primed. rewrite Ed. auto.
  Qed.

  Lemma upd_core st i s : length (ct_cons (set_con st i s)) = length (ct_cons st) /\ ct_fact (set_con st i s) = ct_fact st /\ ct_sys (set_con st i s) = ct_sys st.
  Proof. cbn. rewrite upd_length. auto. Qed.

  Lemma prepare_total st o y : good st -> op_affine o = false -> length y = N ->
    exists st' r, PrepareStep (conex iters nf) p st o y = Ok (st', r) /\ good st' /\ shaped primed p st'.
  Proof.
    intros G Ho Hy. unfold PrepareStep, NumberOfConstraints.
    destruct (foldM_inv (fun (acc : bk_state (conex iters nf) * (R * R)) i =>
             let '(st, (norminfd, normsqrd)) := acc in
             clique <- at_ (p_cliques p) i ;;
             z <- Vars y clique ;;
             '(st', (ni, ns)) <- bk_prepare (conex iters nf) p st i o z ;;
             Ok (st', ((if Rltb norminfd ni then ni else norminfd), normsqrd + ns)))
       (fun pre (acc : cst * (R * R)) => good (fst acc) /\
          forall i co s, In i pre -> nth_error (p_eqs p) i = Some co -> nth_error (ct_cons (fst acc)) i = Some s -> primed co s)
       (seq 0 (length (p_eqs p))) (st, (-1, 0))) as ([st' r] & E & G' & P').
    - split; auto. intros i co s [].
    - intros pre i post [st1 [n1 q1]] Ep [G1 P1]. cbn [fst] in *.
      assert (i < length (p_eqs p))%nat as Hi. { assert (In i (seq 0 (length (p_eqs p)))) as Hin by (rewrite Ep; apply in_app_iff; right; left; auto). apply in_seq in Hin. lia. }
      destruct (clique_at i y Hi Hy) as (z & -> & E2 & Hz). cbn [bind]. rewrite E2. cbn [bind bk_prepare conex].
      destruct (prepare_one st1 i o z G1 Hi Ho Hz) as (st2 & [ni ns] & co & s' & E3 & Ec & H1 & H2 & H3). rewrite E3. cbn [bind].
      eexists. split; [reflexivity|]. cbn [fst]. split; [apply (shaped_cons _ _ (set_con st1 i s')); [auto|eapply shaped_set; eauto]|].
      intros k co' s Hk Hk1 Hk2. destruct (Nat.eq_dec i k) as [->|Hn].
      + rewrite Ec, nth_error_upd_eq in Hk2 by (rewrite (proj1 G1); auto). injection Hk2 as <-. congruence.
      + rewrite Ec, nth_error_upd_neq in Hk2 by auto. apply in_app_iff in Hk as [Hk|[Hk|[]]]; [|congruence]. eauto.
    - exists st', r. split; [exact E|]. cbn [fst] in *. split; auto. split; [apply G'|].
      intros i co s Hi Hs. eapply P'; eauto. apply in_seq. pose proof (nth_error_lt _ _ _ Hi). lia.
  Qed.

  Lemma take_total st o : good st -> shaped primed p st -> op_affine o = false ->
    exists st', TakeStep (conex iters nf) p st o = Ok st' /\ good st' /\ shaped primed p st'.
  Proof.
    intros G P Ho. unfold TakeStep.
    destruct (foldM_inv (fun (st : cst) i => bk_take (conex iters nf) p st i o) (fun _ (st : cst) => good st /\ shaped primed p st) (p_constraints p) st) as (st' & E & H).
    - auto.
    - intros pre i post st1 Ep [G1 P1].
      assert (i < length (p_eqs p))%nat as Hi by (apply (proj1 HL); rewrite Ep; apply in_app_iff; right; left; auto).
      destruct (shaped_get _ _ _ i G1 Hi) as (co & s & H1 & H2 & H3 & H4). pose proof (proj2 P1 i co s H1 H2) as H5.
      cbn [bk_take conex]. unfold con_take. rewrite H3. cbn [bind]. unfold shape_ok in H4. unfold primed in H5.
      destruct (ct_data co) as [cols A b|n A b|h n As C| | |Q|A b] eqn:Ed; destruct s as [w|l| |w|w|]; try tauto; eauto.
      2:{ destruct H4 as (Hn & W & HW & HI). destruct H5 as (d & Hd). rewrite Hd. cbn [written bind].
        pose proof (HC i co H1) as HCi. rewrite Ed in HCi. destruct HCi as (C1 & C2 & C3).
        pose proof (soc_ready_total n A b w (length A) W HW C1 Hn eq_refl) as Eq. rewrite Eq. cbn [bind].
        destruct (soc_taken n A b w (length A) _ (op_step_size o) Eq) as (W0 & W' & d' & EW & _ & Em & HI'). rewrite Em.
        eexists. split; [reflexivity|]. split; eapply shaped_set; eauto.
        - unfold shape_ok. rewrite Ed. cbn. split; auto. exists W'. split; auto. apply HI'. congruence.
        - unfold primed. rewrite Ed. cbn. eauto. }
      2:{ destruct H5 as (d & Hd). rewrite Hd. cbn [written bind].
        pose proof (HC i co H1) as HCi. rewrite Ed in HCi.
        destruct (herm_total h n As C w (length As)) as (q0 & Eq); [tauto|exact H4|]. rewrite Eq. cbn [bind]. destruct H4 as (S1 & S2 & S3 & S4).
        destruct (HermLinks.herm_taken h n As C w q0 (herm_options o) true Eq S4) as (o' & w' & E1 & E2 & E3 & E4 & E5 & _ & W' & WS' & E6 & E7).
        rewrite E1. cbn [bind]. rewrite E2. eexists. split; [reflexivity|]. split; eapply shaped_set; eauto.
        - unfold shape_ok. rewrite Ed. eauto 10.
        - unfold primed. rewrite Ed. eauto. }
      destruct H4 as (W & HW & HlW & HnW). destruct H5 as (d & Hd & Hld). unfold linear_take. rewrite Ho, Hd, HW. cbn [written bind].
      match goal with |- context [zip_ Rmult W ?v] => destruct (zip_total' Rmult W v) as (W' & EW' & HW'); [|rewrite EW'] end.
      { rewrite map_length. destruct (Req_EM_T (op_step_size o) 1); rewrite ?vscale_length; lia. }
      cbn [bind]. eexists. split; [reflexivity|]. split; eapply shaped_set; eauto.
      + unfold shape_ok. rewrite Ed. cbn. exists W'. split; auto. split; [lia|]. apply (zip_nonzero _ _ _ EW' HnW). apply Forall_forall. intros x Hx. apply in_map_iff in Hx as (y & <- & _). pose proof (exp_pos y). lra.
      + unfold primed. rewrite Ed. cbn. eexists. split; [reflexivity|]. rewrite map_length. destruct (Req_EM_T (op_step_size o) 1); rewrite ?vscale_length; lia.
    - exists st'. tauto.
  Qed.

  Definition framed (st st' : cst) : Prop := ct_fact st' = ct_fact st /\ ct_sys st' = ct_sys st.
  Lemma set_framed st i s : framed st (set_con st i s). Proof. split; auto. Qed.

  Lemma loop_total mu : forall d0 d1 first lo up, length d1 = length d0 -> exists r, FindMinimumMu_loop mu first d0 d1 lo up = Ok r.
  Proof.
    induction d0 as [|x d0 IH]; intros [|y d1] first lo up H; cbn in *; try lia; [eauto|].
    destruct (search_step mu first lo up x y) as [l u]. apply IH. lia.
  Qed.

  Lemma search_one st i params z0 z1 : good st -> (i < length (p_eqs p))%nat -> length z0 = length (cl i) -> length z1 = length (cl i) ->
    exists st' r, con_search p st i params z0 z1 = Ok (st', r) /\ good st' /\ framed st st'.
  Proof.
    intros G Hi Hz0 Hz1. destruct (shaped_get _ _ _ i G Hi) as (co & s & H1 & H2 & H3 & H4). unfold con_search. rewrite H3. cbn [bind].
    pose proof (HC i co H1) as HCi. rewrite (vars_number i co H1) in HCi. unfold shape_ok in H4.
    destruct (ct_data co) as [cols A b|n A b|h n As C| | |Q|A b] eqn:Ed; destruct s as [w|l| |w|w|]; try tauto.
    - destruct HCi as (C1 & C2 & C3). destruct H4 as (W & HW & HlW & HnW). unfold linear_search. rewrite HW. cbn [written bind].
      destruct (slack_total cols A b (ln_c0 params) z0 ltac:(lia) C2) as (s0 & -> & Hs0). cbn [bind].
      destruct (zip_total' Rmult s0 W ltac:(lia)) as (e0 & -> & He0). cbn [bind].
      destruct (slack_total cols A b (ln_c1 params) z1 ltac:(lia) C2) as (s1 & -> & Hs1). cbn [bind].
      destruct (zip_total' Rmult s1 W ltac:(lia)) as (e1 & -> & He1). cbn [bind].
      destruct (zip_total' Rminus (map (fun x => x + 1) e1) (map (fun x => x + 1) e0)) as (d1 & Ed1 & Hd1); [rewrite !map_length; lia|].
      unfold vminus. rewrite Ed1. cbn [bind]. unfold FindMinimumMu.
      destruct (loop_total (ln_dinf params) (map (fun x => x + 1) e0) d1 true (Fin (- DBL_MAX)) (Fin DBL_MAX) ltac:(rewrite Hd1, !map_length; lia)) as ([l u] & ->).
      cbn [bind]. eexists _, _. split; [reflexivity|]. split; [|apply set_framed]. eapply shaped_set; eauto. unfold shape_ok. rewrite Ed. cbn. eauto.
    - eexists _, _. split; [reflexivity|]. split; [auto|split; auto].
    - eexists _, _. split; [reflexivity|]. split; [auto|split; auto].
    - eexists _, _. split; [reflexivity|]. split; [auto|split; auto].
    - eexists _, _. split; [reflexivity|]. split; [auto|split; auto].
  Qed.

  Lemma search_total params y0 y1 es : length y0 = N -> length y1 = N -> (forall i, In i es -> (i < length (p_eqs p))%nat) ->
    forall st lo up, good st -> exists st' r, search_loop (conex iters nf) p st params y0 y1 es lo up = Ok (st', r) /\ good st' /\ framed st st'.
  Proof.
    intros H0 H1. induction es as [|i es IH]; intros He st lo up G; cbn [search_loop].
    - eexists _, _. split; [reflexivity|]. split; [auto|split; auto].
    - assert (i < length (p_eqs p))%nat as Hi by (apply He; left; auto).
      destruct (clique_at i y0 Hi H0) as (z0 & E & E0 & Hz0). destruct (clique_at i y1 Hi H1) as (z1 & _ & E1 & Hz1).
      rewrite E. cbn [bind]. rewrite E0. cbn [bind]. rewrite E1. cbn [bind bk_search conex].
      destruct (search_one st i params z0 z1 G Hi Hz0 Hz1) as (st1 & r & -> & G1 & F1). cbn [bind].
      destruct r as [[l u]|]; [|eexists _, _; split; [reflexivity|]; auto].
      destruct (IH ltac:(intros; apply He; right; auto) st1 (if Rltb lo l then l else lo) (if Rltb u up then u else up) G1) as (st2 & r & -> & G2 & F2).
      eexists _, _. split; [reflexivity|]. split; auto. destruct F1, F2. split; congruence.
  Qed.

  Lemma spectrum_one st i z cw : good st -> (i < length (p_eqs p))%nat -> length z = length (cl i) ->
    exists st' r, con_spectrum nf p st i z cw = Ok (st', r) /\ good st' /\ framed st st'.
  Proof.
    intros G Hi Hz. destruct (shaped_get _ _ _ i G Hi) as (co & s & H1 & H2 & H3 & H4). unfold con_spectrum. rewrite H3. cbn [bind].
    pose proof (HC i co H1) as HCi. rewrite (vars_number i co H1) in HCi. unfold shape_ok in H4.
    destruct (ct_data co) as [cols A b|n A b|h n As C| | |Q|A b] eqn:Ed; destruct s as [w|l| |w|w|]; try tauto.
    - destruct HCi as (C1 & C2 & C3). destruct H4 as (W & HW & HlW & HnW). unfold linear_spectrum. rewrite HW. cbn [written bind].
      destruct (slack_total cols A b cw z ltac:(lia) C2) as (s0 & -> & Hs0). cbn [bind].
      destruct (zip_total' Rmult W s0 ltac:(lia)) as (e0 & -> & He0). cbn [bind].
      assert (e0 <> []) as Hne by (apply (nonempty_length _ A); auto; lia).
      destruct (min_total e0 Hne) as (a & ->). destruct (max_total e0 Hne) as (b0 & ->). cbn [bind].
      eexists _, _. split; [reflexivity|]. split; [|apply set_framed]. eapply shaped_set; eauto. unfold shape_ok. rewrite Ed. cbn. eauto.
    - destruct HCi as (C1 & C2 & C3). destruct H4 as (Hn & W & HW & HI).
      destruct (soc_spectrum_total n A b w z cw W HW C1 Hn ltac:(congruence) C3 HI) as (o & r & -> & E2). cbn [bind]. rewrite E2. cbn [bind].
      eexists _, _. split; [reflexivity|]. split; [auto|split; auto].
    - destruct (herm_total h n As C w (length z)) as (q0 & Eq); [rewrite Hz; exact HCi|exact H4|]. rewrite Eq. cbn [bind].
      destruct (JordanModel.HWeightedSlack h q0 (fun j => nth j z 0) cw) as [tr fr].
      destruct (env_estimate nf _ _ _ _ _) as [[lo hi]|]; cbn [bind]; (eexists _, _; split; [reflexivity|]; split; [apply (shaped_cons _ _ st); auto|split; auto]).
    - eexists _, _. split; [reflexivity|]. split; [auto|split; auto].
    - eexists _, _. split; [reflexivity|]. split; [auto|split; auto].
  Qed.

  Lemma spectrum_total st y cw : good st -> length y = N -> exists st' r, GetWeightedSlackEigenvalues (conex iters nf) p st y cw = Ok (st', r) /\ good st' /\ framed st st'.
  Proof.
    intros G Hy. unfold GetWeightedSlackEigenvalues, NumberOfConstraints.
    destruct (foldM_inv (fun (acc : bk_state (conex iters nf) * spectrum) i =>
             let '(st, s) := acc in
             clique <- at_ (p_cliques p) i ;;
             z <- Vars y clique ;;
             '(st', (lmin, lmax, frob, tr)) <- bk_spectrum (conex iters nf) p st i z cw ;;
             Ok (st', mkSpectrum (frobenius_norm_squared s + frob) (trace s + tr)
                        (if Rltb lmin (lambda_min s) then lmin else lambda_min s)
                        (if Rltb (lambda_max s) lmax then lmax else lambda_max s)
                        (rank s)))
       (fun pre (acc : cst * spectrum) => good (fst acc) /\ framed st (fst acc)) (seq 0 (length (p_eqs p))) (st, mkSpectrum 0 0 30000 (-30000) 0)) as ([st' r] & E & G').
    - cbn. split; auto. split; auto.
    - intros pre i post [st1 s1] Ep [G1 F1]. cbn [fst] in *.
      assert (i < length (p_eqs p))%nat as Hi. { assert (In i (seq 0 (length (p_eqs p)))) as Hin by (rewrite Ep; apply in_app_iff; right; left; auto). apply in_seq in Hin. lia. }
      destruct (clique_at i y Hi Hy) as (z & -> & E2 & Hz). cbn [bind]. rewrite E2. cbn [bind bk_spectrum conex].
      destruct (spectrum_one st1 i z cw G1 Hi Hz) as (st2 & [[[l1 l2] f] t] & -> & G2 & F2). cbn [bind].
      eexists. split; [reflexivity|]. cbn [fst]. split; auto. destruct F1, F2. split; congruence.
    - exists st', r. split; auto.
  Qed.

  Lemma one_interior n : Spec_Soc.interior (Spec_Soc.euclid n) (1, fun _ => 0).
  Proof. unfold Spec_Soc.interior. cbn [fst snd]. rewrite (SocAlgebra.B_zero n _ (SocAlgebra.euclid_form n) (fun _ => 0)). lra. Qed.

  Lemma identity_shaped st : good st -> good (SetIdentity (conex iters nf) p st).
  Proof.
    unfold SetIdentity. cbn [bk_identity conex bk_state]. generalize (p_constraints p) as l. intros l. revert st.
    induction l as [|i l IH]; intros st G; cbn [fold_left]; auto. apply IH. unfold con_identity.
    destruct (get_con p st i) as [[co s]| | |] eqn:E; auto. apply get_con_ok in E as [E1 E2].
    destruct (ct_data co) as [cols A b|n A b|h n As C| | |Q|A b] eqn:Ed; auto; destruct s as [w|l0| |w|w|]; auto.
    2:{ destruct (Nat.eqb_spec n 0); auto. destruct (Nat.eqb_spec (sw_n w) n); auto. cbn [orb negb]. eapply shaped_set; eauto.
      unfold shape_ok. rewrite Ed. cbn. split; auto. eexists. split; [reflexivity|]. apply one_interior. }
    2:{ destruct (((hw_h w =? h) && (hw_n w =? n))%nat && associative_algebra h) eqn:Eb; auto. eapply shaped_set; eauto.
      unfold shape_ok. rewrite Ed. cbn [hw_h hw_n hw_W]. apply andb_true_iff in Eb as [_ Eb]. apply HermLinks.algebra_ok in Eb as (k & Hk & ->).
      do 2 (split; [auto|]). split; [eauto|]. apply HermLinks.identity_inside. auto. }
    eapply shaped_set; eauto. unfold shape_ok. rewrite Ed. cbn.
    eexists. split; [reflexivity|]. split; [apply repeat_length|]. apply Forall_forall. intros x Hx. apply repeat_spec in Hx. lra.
  Qed.

  (** The identity makes fresh constraints usable. *)
  Definition classed (co : container) (s : cstate) : Prop :=
    match ct_data co, s with
    | CLinear _ _ _, SLinear _ | CEq _ _, SEq _ | CQuad _, SQuad => True
    | CSoc n _ _, SSoc w => sw_n w = n
    | CHerm h n _ _, SHerm w => hw_h w = h /\ hw_n w = n
    | _, _ => False
    end.
  Lemma identity_good st : shaped classed p st -> good (SetIdentity (conex iters nf) p st).
  Proof.
    intros G. unfold SetIdentity. cbn [bk_identity conex bk_state].
    assert (forall l st, shaped classed p st -> (forall i, In i l -> (i < length (p_eqs p))%nat) ->
      let st' := fold_left (fun st i => con_identity p st i) l st in
      shaped classed p st' /\ forall i co s, nth_error (p_eqs p) i = Some co -> nth_error (ct_cons st') i = Some s ->
        (In i l \/ (exists s0, nth_error (ct_cons st) i = Some s0 /\ shape_ok co s0) \/ (forall h cols A b As C, ct_data co <> CLinear cols A b /\ ct_data co <> CSoc cols A b /\ ct_data co <> CHerm h cols As C)) -> shape_ok co s) as H.
    { clear st G. induction l as [|i l IH]; intros st G Hl; cbn [fold_left].
      - split; auto. intros i co s H1 H2 [[]|[(s0 & H3 & H4)|H3]]; [congruence|].
        pose proof (proj2 G i co s H1 H2) as Hc. unfold classed in Hc. unfold shape_ok.
        destruct (ct_data co) as [cols A b|m A b|h m As C| | |Q|A b]; destruct s; try tauto; exfalso;
          [apply (proj1 (H3 0%nat cols A b [] []))|apply (proj1 (proj2 (H3 0%nat m A b [] [])))|apply (proj2 (proj2 (H3 h m [] [] As C)))]; auto.
      - destruct (shaped_get _ _ _ i G (Hl i (or_introl eq_refl))) as (co & s & E1 & E2 & E3 & E4).
        assert (exists s', con_identity p st i = set_con st i s' /\ classed co s' /\ shape_ok co s') as (s' & Es & C1 & C2).
        { unfold con_identity. rewrite E3. unfold classed in E4. unfold classed, shape_ok.
          assert (set_con st i s = st) as Eid.
          { unfold set_con. destruct st as [cons mem f sys dr]. cbn in *. f_equal. clear - E2. revert i E2. induction cons as [|a cons IHc]; intros [|i] H; cbn in *; try discriminate; [injection H as ->; auto|f_equal; eauto]. }
          destruct (ct_data co) as [cols A b|n A b|h n As C| | |Q|A b] eqn:Ed; destruct s as [w|lam| |w|w|]; try tauto.
          - eexists. split; [reflexivity|]. split; auto. cbn. eexists. split; [reflexivity|]. split; [apply repeat_length|]. apply Forall_forall. intros x Hx. apply repeat_spec in Hx. lra.
          - pose proof (HC i co E1) as HCi. rewrite Ed in HCi. destruct HCi as (C1 & _). destruct (Nat.eqb_spec n 0); [lia|]. rewrite E4, Nat.eqb_refl. cbn [orb negb].
            eexists. split; [reflexivity|]. cbn. split; auto. split; auto. eexists. split; [reflexivity|]. apply one_interior.
          - pose proof (HC i co E1) as HCi. rewrite Ed in HCi. destruct HCi as (_ & C1 & _). destruct E4 as [E4 E5]. rewrite E4, E5, !Nat.eqb_refl. cbn [andb].
            assert (exists k, (k <= 2)%nat /\ h = (2 ^ k)%nat) as (k & Hk & Eh). { destruct C1 as [->|[->| ->]]; [exists 0%nat|exists 1%nat|exists 2%nat]; auto. }
            assert (associative_algebra h = true) as -> by (apply HermLinks.algebra_ok; eauto).
            eexists. split; [reflexivity|]. cbn [hw_h hw_n hw_W]. split; [auto|]. do 2 (split; [auto|]). split; [eauto|]. rewrite Eh. apply HermLinks.identity_inside. auto.
          - exists SQuad. rewrite Eid. auto.
          - exists (SEq lam). rewrite Eid. auto. }
        rewrite Es.
        assert (shaped classed p (set_con st i s')) as G1 by (eapply shaped_set; eauto).
        destruct (IH (set_con st i s') G1 ltac:(intros; apply Hl; right; auto)) as [I1 I2]. split; auto.
        intros k co' s2 K1 K2 K3. eapply I2; eauto.
        destruct (Nat.eq_dec i k) as [->|Hn].
        + right. left. exists s'. cbn. rewrite nth_error_upd_eq by (rewrite (proj1 G); eapply nth_error_lt; eauto). split; auto. congruence.
        + destruct K3 as [[K3|K3]|[(s0 & K3 & K4)|K3]]; [congruence|auto| |auto]. right. left. exists s0. cbn. rewrite nth_error_upd_neq by auto. auto. }
    destruct (H (p_constraints p) st G (proj1 HL)) as [H1 H2]. cbv zeta in *.
    split; [apply H1|]. intros i co s Hi Hs. eapply H2; eauto.
    destruct (ct_data co) eqn:Ed; try (right; right; intros; repeat split; congruence); left; [eapply (proj1 (proj2 HL))|eapply (proj1 (proj2 (proj2 HL)))|eapply (proj2 (proj2 (proj2 HL)))]; eauto.
  Qed.

  Lemma vplus_total a b : length a = N -> length b = N -> exists l, vplus a b = Ok l /\ length l = N.
  Proof. intros H1 H2. destruct (zip_total' Rplus a b ltac:(lia)) as (l & E & Hl). exists l. split; auto. lia. Qed.
  Lemma vminus_total a b : length a = N -> length b = N -> exists l, vminus a b = Ok l /\ length l = N.
  Proof. intros H1 H2. destruct (zip_total' Rminus a b ltac:(lia)) as (l & E & Hl). exists l. split; auto. lia. Qed.

  Definition solves (st : cst) : Prop :=
    forall st2 r, ct_fact st2 = ct_fact st -> length r = N -> exists y, con_solve iters p st2 r = Ok y /\ length y = N.

  Lemma update_mu_total c st b bs cs rk ism : good st -> solves st -> length b = N ->
    length (r_AW (ct_sys st)) = N -> length (r_AQc (ct_sys st)) = N ->
    exists u, update_mu (conex iters nf) p c st b bs cs rk ism = Ok u /\
      match u with Some (st', _) => good st' /\ framed st st' | None => True end.
  Proof.
    intros G S Hb HW HQ. unfold update_mu. cbn [bk_sys conex]. change (bk_state (conex iters nf)) with cst.
    match goal with |- exists u, bind ?e _ = _ /\ _ => assert (exists (st1 : cst) (t1 : R), e = Ok (st1, t1) /\ good st1 /\ framed st st1) as (st1 & t1 & E1 & G1 & F1) end.
    { destruct (negb (enable_line_search c =? 0)%Z); [|eexists _, _; split; [reflexivity|]; split; [auto|split; auto]].
      unfold ComputeMuFromLineSearch. cbn [bk_solve conex].
      destruct (S st (vscale (-2) (r_AW (ct_sys st))) eq_refl ltac:(rewrite vscale_length; auto)) as (y0 & -> & Hy0). cbn [bind].
      destruct (vplus_total (vscale cs (r_AQc (ct_sys st))) (vscale bs b)) as (r0 & -> & Hr0); [rewrite vscale_length; auto..|]. cbn [bind].
      destruct (vminus_total r0 (vscale 2 (r_AW (ct_sys st)))) as (r1 & -> & Hr1); [auto|rewrite vscale_length; auto|]. cbn [bind].
      destruct (S st r1 eq_refl Hr1) as (y1 & -> & Hy1). cbn [bind]. unfold NumberOfConstraints.
      destruct (search_total (mkLine (cs * 0) (cs * 1) (dinf_upper_bound c)) y0 y1 (seq 0 (length (p_eqs p))) Hy0 Hy1 ltac:(intros i Hi; apply in_seq in Hi; lia) st (- DBL_MAX) DBL_MAX G) as (st1 & r & -> & G1 & F1).
      cbn [bind]. destruct r as [[lo up]|]; cbn [bind]; eexists _, _; (split; [reflexivity|]); auto. }
    rewrite E1. cbn [bind]. destruct (Rltb t1 0).
    - destruct (p_quadratic p); [exists None; auto|].
      unfold ComputeMuFromDivergence. cbn [bk_solve conex].
      destruct (vminus_total (vscale cs (r_AQc (ct_sys st))) (vscale bs b)) as (r0 & -> & Hr0); [rewrite vscale_length; auto..|]. cbn [bind].
      destruct (S st1 r0 (proj1 F1) Hr0) as (y & -> & Hy). cbn [bind].
      destruct (spectrum_total st1 y cs G1 Hy) as (st2 & s & -> & G2 & F2). cbn [bind]. eexists. split; [reflexivity|].
      cbn iota beta. split; auto. destruct F1, F2. split; congruence.
    - eexists. split; [reflexivity|]. split; auto.
  Qed.

  (** At least one iteration is complete. *)
  Definition complete (s : lstate cst) : Prop :=
    l_num_iter s <> None /\ (exists y, l_y s = Some y /\ length y = N) /\ exists e t, l_log s = e :: t /\ en_ism e = l_ism s.

  (** Loop state of a running solve. *)
  Record fit (c : config) (M i : nat) (s : lstate cst) : Prop := {
    ft_shape : good (nm_bk (l_num s));
    ft_area : length (nm_area (l_num s)) = (2 * M + 2)%nat;
    ft_b : exists x, nth_error (nm_area (l_num s)) (b_cell M) = Some (Some x);
    ft_c : exists x, nth_error (nm_area (l_num s)) (c_cell M) = Some (Some x);
    ft_first : i = 0%nat -> l_centering_steps s = 0%Z /\ l_max s = inv_sqrt_mu_max c /\ l_ism s = 0 /\ l_kkt_error s = XFin 0;
    ft_ism : 0 <= l_ism s;
    ft_later : (0 < i)%nat -> complete s
  }.
  Definition done (c : config) (M : nat) (s : lstate cst) : Prop :=
    complete s /\ exists x, nth_error (nm_area (l_num s)) (c_cell M) = Some (Some x).

  Section Run.
    Variable c : config.
    Variable M : nat.
    Variable b : list R.
    Variable rankK : nat.
    Hypothesis Hb : length b = N.
    Hypothesis Hmode : initialization_mode c = 0%Z.
    Hypothesis Hmu : 0 < / 10 ^ 15 + maximum_mu c.
    Hypothesis Hmax : enable_rescaling c <> 0%Z -> inv_sqrt_mu_max c <> 0.
    Hypothesis Hfin : (0 < final_centering_steps c)%Z \/
      (0 < inv_sqrt_mu_max c /\ 0 <= kkt_error_tolerance c /\ (final_centering_steps c < max_iterations c)%Z).
    Definition sure : Prop := rectangular p /\ (factorable p \/ exists f, iters = Qr f) /\ quadratic_precondition p c = true.

    Lemma cell_total a k x : nth_error a k = Some (Some x) -> get_cell a k = Ok x.
    Proof. intros H. unfold get_cell, idx. rewrite H. auto. Qed.

    Lemma rescale_total AQc a m : length a = (2 * M + 2)%nat -> m <> 0 ->
      exists a' m', rescale c b AQc M a m = Ok (a', m') /\ length a' = (2 * M + 2)%nat /\
        (exists x, nth_error a' (b_cell M) = Some (Some x)) /\ (exists x, nth_error a' (c_cell M) = Some (Some x)).
    Proof.
      intros Ha Hm. unfold rescale. rewrite Hmode. cbn [Z.eqb]. unfold set_idx.
      destruct (Nat.ltb_spec (b_cell M) (length a)) as [_|H]; [|unfold b_cell in H; lia]. cbn [bind].
      destruct (Nat.ltb_spec (c_cell M) (length (upd a (b_cell M) (Some (1 / (1 + vnorm b)))))) as [_|H]; [|rewrite upd_length in H; unfold c_cell in H; lia]. cbn [bind].
      set (a' := upd (upd a (b_cell M) (Some (1 / (1 + vnorm b)))) (c_cell M) (Some (1 / (1 + vnorm AQc)))).
      assert (nth_error a' (b_cell M) = Some (Some (1 / (1 + vnorm b)))) as E1.
      { unfold a'. rewrite nth_error_upd_neq by (unfold b_cell, c_cell; lia). apply nth_error_upd_eq. unfold b_cell. lia. }
      assert (nth_error a' (c_cell M) = Some (Some (1 / (1 + vnorm AQc)))) as E2.
      { unfold a'. apply nth_error_upd_eq. rewrite upd_length. unfold c_cell. lia. }
      rewrite (cell_total _ _ _ E1), (cell_total _ _ _ E2). cbn [bind]. destruct (Req0_spec m); [contradiction|].
      eexists _, _. split; [reflexivity|]. split; [unfold a'; rewrite !upd_length; auto|]. eauto.
    Qed.

    Lemma iteration_total steps i s : (i < M)%nat -> fit c M i s ->
      exists v, iteration (conex iters nf) p c M steps b rankK i s = Ok v /\
        match v with VNext s' => fit c M (S i) s' | VBreak s' _ => done c M s' | VReturn _ _ => ~ sure | VOverflow _ => False end.
    Proof.
      intros Hi [Fs Fa Fb Fc F0 FI F1]. unfold iteration. rewrite Hmode. cbn [Z.eqb]. change (bk_state (conex iters nf)) with cst.
      match goal with |- exists v, (if ?f then _ else _) = _ /\ _ => destruct f eqn:Ebr end.
      - eexists. split; [reflexivity|]. cbn. split; [|cbn; auto]. assert (0 < i)%nat as Hp; [|destruct (F1 Hp) as (C1 & C2 & C3); split; [exact C1|split; [exact C2|exact C3]]].
        destruct i as [|i]; [|lia]. exfalso. apply andb_true_iff in Ebr as [Ebr1 Ebr]. destruct (F0 eq_refl) as (E & E2 & E3 & E4). rewrite E in Ebr. apply Z.leb_le in Ebr.
        destruct Hfin as [Hf|(Hf1 & Hf2 & Hf3)]; [lia|]. rewrite E2, E3, E4 in Ebr1. cbn [xgt] in Ebr1.
        apply orb_true_iff in Ebr1 as [Ebr1|Ebr1]; [|apply Z.leb_le in Ebr1; lia]. apply orb_true_iff in Ebr1 as [Ebr1|Ebr1].
        + destruct (Rleb_spec (inv_sqrt_mu_max c) 0); [lra|discriminate].
        + destruct (Rltb_spec (kkt_error_tolerance c) 0); [lra|discriminate].
      - clear Ebr. cbn [conex bk_assemble bk_state]. destruct (assemble_total _ Fs) as (st0 & E0 & G0 & L1 & L2). rewrite E0. cbn [bind].
        cbn [bk_sys conex].
        assert (exists a0 ismax, (if (i <? 1)%nat && negb (enable_rescaling c =? 0)%Z then rescale c b (r_AQc (ct_sys st0)) M (nm_area (l_num s)) (l_max s)
           else Ok (nm_area (l_num s), l_max s)) = Ok (a0, ismax) /\ length a0 = (2 * M + 2)%nat /\
           (exists x, nth_error a0 (b_cell M) = Some (Some x)) /\ (exists x, nth_error a0 (c_cell M) = Some (Some x))) as (a0 & ismax & Er & La & Cb & Cc).
        { destruct ((i <? 1)%nat && negb (enable_rescaling c =? 0)%Z) eqn:Er; [|eexists _, _; split; [reflexivity|auto]].
          apply andb_true_iff in Er as [Er1 Er2]. apply Nat.ltb_lt in Er1. assert (i = 0)%nat as E by lia. destruct (F0 E) as (_ & E' & _ & _).
          apply rescale_total; auto. rewrite E'. apply Hmax. apply negb_true_iff, Z.eqb_neq in Er2. auto. }
        change (bk_state (conex iters nf)) with cst in *. rewrite Er. cbn [bind bk_factor conex].
        destruct (factor_ok _ _ Fs E0) as (st1 & ok & E1 & S0 & S1). rewrite E1. cbn [bind].
        destruct (con_factor_core _ _ _ _ _ E1) as [K1 K2].
        destruct ok; cbn [negb].
        2:{ rewrite andb_false_r. eexists. split; [reflexivity|]. intros (U1 & U2 & _). specialize (S0 U1 U2). discriminate. }
        specialize (S1 eq_refl). destruct Cb as (bs & Cb). destruct Cc as (cs & Cc).
        assert (good st1) as G1 by (destruct G0 as [G01 G02]; split; rewrite K1; auto).
        assert (forall fin s1 st2 ism0 stp, good st2 -> framed st1 st2 -> exists v,
          finish_iteration (conex iters nf) p c M b rankK i fin s1 st2 a0 ismax ism0 stp = Ok v /\
          match v with VNext s' => fit c M (S i) s' | VBreak s' _ => done c M s' | VReturn _ _ => ~ sure | VOverflow _ => False end) as HF.
        { clear s Fs Fa Fb Fc F0 FI F1 E0 Er. intros fin s st2 ism0 stp G2 [Fr1 Fr2]. unfold finish_iteration. rewrite Hmode. cbn [Z.eqb].
          unfold lower_limit. destruct (Rltb_spec 0 (/ 10 ^ 15 + maximum_mu c)); [|contradiction]. cbn [bind].
          rewrite (cell_total _ _ _ Cb), (cell_total _ _ _ Cc). cbn [bind bk_sys conex].
          destruct (vplus_total (vscale bs b) (vscale cs (r_AQc (ct_sys st2)))) as (r1 & -> & Hr1); [rewrite vscale_length, ?Fr2, ?K2; auto..|]. cbn [bind].
          match goal with |- context [vscale ?k r1] => destruct (vminus_total (vscale k r1) (vscale 2 (r_AW (ct_sys st2)))) as (r2 & -> & Hr2) end; [rewrite vscale_length, ?Fr2, ?K2; auto..|]. cbn [bind bk_solve conex].
          destruct (S1 st2 r2 Fr1 Hr2) as (y & -> & Hy). cbn [bind].
          match goal with |- context [PrepareStep (conex iters nf) p st2 ?o y] => destruct (prepare_total st2 o y G2 eq_refl Hy) as (st3 & [nn nsq] & E3 & G3 & P3) end.
          change (bk_state (conex iters nf)) with cst in *. rewrite E3. cbn [bind].
          rewrite andb_false_r. cbn [andb].
          match goal with |- context [TakeStep (conex iters nf) p st3 ?o] => destruct (take_total st3 o G3 P3 eq_refl) as (st4 & E4 & G4 & _) end.
          rewrite E4. cbn [bind]. destruct (Nat.leb_spec (length a0) i); [lia|].
          match goal with |- context [if ?q then _ else _] => destruct q end; (eexists; split; [reflexivity|]); cbn.
          - split; [split; [discriminate|split; [exists y; split; [reflexivity|exact Hy]|cbn; eexists _, _; split; reflexivity]]|]. exists cs. cbn. rewrite nth_error_upd_neq by (unfold c_cell; lia). auto.
          - constructor; cbn [l_num nm_bk nm_area l_centering_steps l_max l_num_iter l_ism]; auto.
            + rewrite upd_length. auto.
            + exists bs. rewrite nth_error_upd_neq by (unfold b_cell; lia). auto.
            + exists cs. rewrite nth_error_upd_neq by (unfold c_cell; lia). auto.
            + lia.
            + match goal with |- 0 <= ApplyLimits ?x ?lo ?hi => apply Rle_trans with lo; [apply sqrt_pos|apply ApplyLimits_ge] end.
            + split; [discriminate|split; [exists y; split; [reflexivity|exact Hy]|cbn; eexists _, _; split; reflexivity]]. }
        match goal with |- exists v, (if ?u then _ else _) = _ /\ _ => destruct u end.
        + rewrite (cell_total _ _ _ Cb), (cell_total _ _ _ Cc). cbn [bind].
          destruct (update_mu_total c st1 b bs cs rankK (l_ism s) G1 S1 Hb) as (u & Eu & Hu); [congruence..|].
          change (bk_state (conex iters nf)) with cst in *. rewrite Eu. cbn [bind].
          destruct u as [[st2 ism]|]; [|eexists; split; [reflexivity|intros (_ & _ & U3); exact (update_mu_demand (conex iters nf) _ _ _ _ _ _ _ _ FI U3 Eu)]]. destruct Hu. apply HF; auto.
        + apply HF; auto. split; auto.
    Qed.

    Lemma loop_ok steps : forall todo i s, (i + todo <= M)%nat -> (0 < i + todo)%nat -> fit c M i s ->
      exists v, loop (conex iters nf) p c M steps b rankK todo i s = Ok v /\
        match v with VNext _ => False | VBreak s' _ => done c M s' | VReturn _ _ => ~ sure | VOverflow _ => False end.
    Proof.
      induction todo as [|todo IH]; intros i s Hle Hpos F; cbn [loop].
      - eexists. split; [reflexivity|]. destruct F. split; [apply ft_later0; lia|auto].
      - destruct (iteration_total steps i s ltac:(lia) F) as (v & -> & Hv). cbn [bind].
        destruct v as [s'|s' r|s' k|k]; try tauto; [apply IH; auto; lia|eexists; split; [reflexivity|auto]..].
    Qed.
  End Run.
End Total.

Lemma cold_solve_total nf p n c : starts p c -> well_built p -> consistent p -> listed p -> (length (p_cost p) <= SizeOfKKTSystem p)%nat ->
  initialization_mode c = 0%Z -> prepare_dual_variables c = 0%Z ->
  (0 < max_iterations c)%Z -> - / 10 ^ 15 < maximum_mu c ->
  ((0 < final_centering_steps c)%Z \/
   (0 < inv_sqrt_mu_max c /\ 0 <= kkt_error_tolerance c /\ (final_centering_steps c < max_iterations c)%Z)) ->
  (enable_rescaling c <> 0%Z -> inv_sqrt_mu_max c <> 0) ->
  qr_ready nf p c ->
  exists r, ConexSolve nf p n c = Ok (Returned _ r) /\
    (rectangular p -> factorable p \/ kkt_solver c = 2%Z -> exists y e t, rt_y _ r = YVec y /\ length y = length (p_cost p) /\ rt_log _ r = e :: t).
Proof.
  intros Hst HW HC HL Hcost Hmode Hdual Hit Hmu Hfin Hmax HQ. unfold ConexSolve. set (iters := mode_of nf c).
  apply starts_iff in Hst as [H1 H2]. unfold Solve. rewrite H1. cbn [negb].
  destruct (Nat.eqb_spec (NumberOfConstraints p) 0) as [E|_]; [lia|]. rewrite Hmode. cbn [Z.eqb].
  assert (exists p2, Initialize (clear p) true (Z.to_nat (max_iterations c)) = Ok p2) as (p2 & Ei).
  { unfold Initialize. rewrite orb_true_r. cbn [InitializeWorkspace p_cliques p_duals clear set_status].
    destruct (kkt_dimension _ _ (wb_admissible _ HW)) as (d & o & bs & Eb & _). rewrite Eb. cbn [bind]. eauto. }
  unfold clear in Ei. rewrite Ei. cbn [bind].
  assert (ready p2) as R.
  { apply (initialized_ready p c (Z.to_nat (max_iterations c))); auto; [left; right; auto|]. rewrite Hmode. exact Ei. }
  destruct (Initialize_fields _ _ _ _ Ei) as (F1 & F2 & F3 & F4 & F5 & F6 & F7 & F8 & F9). rewrite orb_true_r in F9. destruct F9 as (F9 & _).
  cbn [set_status p_eqs p_cliques p_constraints p_cost p_quadratic p_duals p_n] in *.
  rewrite F9. cbn [ss_max_iter ss_num_iter]. set (M := Z.to_nat (max_iterations c)) in *.
  assert (SizeOfKKTSystem p2 = SizeOfKKTSystem p) as ES by (unfold SizeOfKKTSystem; rewrite F6, F8; reflexivity).
  assert (consistent p2) as HC2 by (unfold consistent; rewrite F4; auto).
  assert (listed p2) as HL2 by (unfold listed in *; rewrite F7, F4; auto).
  assert (forall f, iters = Qr f -> rectangular p2 /\ regular p2 /\ qr_solves f) as HQ2.
  { intros f. unfold iters, mode_of. destruct (Z.eqb_spec (kkt_solver c) 2) as [Hk|]; [|discriminate]. intros Hf. injection Hf as <-.
    destruct (HQ Hk) as (T & D & S). split; [unfold rectangular in *; rewrite F4; auto|]. split; auto.
    unfold regular, convex, sized_equalities, multiplier_sum in *. rewrite F4, F5, F6, ES. auto. }
  match goal with |- context [loop _ _ _ _ ?st ?b ?rk ?td ?i ?s] => set (b0 := b); set (s0 := s) end.
  assert (length b0 = SizeOfKKTSystem p2) as Hb0. { unfold b0. rewrite app_length, repeat_length, !map_length, F2, ES. lia. }
  assert (fit p2 c M 0 s0) as Ht.
  { unfold s0, Initialize_numeric. rewrite orb_true_r. constructor; cbn [l_num nm_bk nm_area l_centering_steps l_max l_num_iter]; auto.
    - apply identity_good; auto. split; [cbn; rewrite map_length; auto|]. cbn. intros i co s Hi Hs. rewrite nth_error_map, Hi in Hs. injection Hs as <-.
      pose proof (HC2 i co Hi) as Hc. unfold classed, fresh. destruct (ct_data co); auto.
    - rewrite !upd_length, repeat_length. auto.
    - exists 1. rewrite nth_error_upd_neq by (unfold b_cell, c_cell; lia). apply nth_error_upd_eq. rewrite repeat_length. unfold b_cell. lia.
    - exists 1. apply nth_error_upd_eq. rewrite upd_length, repeat_length. unfold c_cell. lia.
    - cbn. lra.
    - lia. }
  destruct (loop_ok iters nf p2 R HC2 HL2 HQ2 c M b0 (Rank (conex iters nf) p2) Hb0 Hmode ltac:(lra) Hmax Hfin (initial_centering_steps_coldstart c) M 0 s0 ltac:(lia) ltac:(lia) Ht) as (v & Ev & Hv).
  change (bk_state (conex iters nf)) with cst in *. rewrite Ev. cbn [bind].
  assert (rectangular p -> factorable p \/ kkt_solver c = 2%Z -> sure iters p2 c) as Hsure.
  { intros T F. split; [|split].
    - unfold rectangular in *. rewrite F4. auto.
    - destruct F as [F|F]; [left; unfold factorable, definite, convex in *; rewrite F4, F5, F6, ES; auto|right].
      exists (env_qr nf). unfold iters, mode_of. rewrite F. reflexivity.
    - unfold quadratic_precondition in *. rewrite F1. auto. }
  destruct v as [s|s rr|s k|k]; try tauto.
  2:{ eexists. split; [reflexivity|]. intros T F. exfalso. auto. }
  destruct Hv as [(D1 & (y & D3 & D4) & e & t & D5 & _) (x & D2)]. unfold finish. change (bk_state (conex iters nf)) with cst in *.
  destruct (l_num_iter s) as [k|]; [|congruence]. rewrite Hdual. cbn [Z.eqb negb bind]. rewrite D3.
  assert (length (firstn (length (map Ropp (p_cost p2))) y) = length (p_cost p)) as Hly.
  { rewrite firstn_length, map_length, F2, D4, ES. lia. }
  destruct (mu_exceeds (l_ism s) (infeasibility_threshold c)); cbn [bind].
  - eexists. split; [reflexivity|]. intros _ _. eexists _, e, t. split; [reflexivity|]. split; auto.
  - match goal with |- context [get_cell ?a ?k] => replace (get_cell a k) with (Ok x) by (symmetry; exact (cell_total _ _ _ D2)) end. cbn [bind].
    eexists. split; [reflexivity|]. intros _ _. eexists _, e, t. split; [reflexivity|]. split; [rewrite map_length; auto|auto].
Qed.

(** The centering parameter of every iteration is at most its upper limit. *)
Lemma logged_mu B p n c r e : starts p c -> Solve B p n c = Ok (Returned B r) -> In e (rt_log B r) -> - / 10 ^ 15 < maximum_mu c ->
  1 / (en_ism e * en_ism e) <= / 10 ^ 15 + maximum_mu c.
Proof.
  intros Hst H He Hmu. apply starts_iff in Hst as [H1 H2]. destruct (solve_limits B p n c r H1 H2 H) as (L & _).
  destruct (L e He) as (E1 & E2 & _). set (m := / 10 ^ 15 + maximum_mu c) in *. assert (0 < m) as Hm by (unfold m; lra).
  assert (en_min e * en_min e = 1 / m) as E3.
  { rewrite E1. unfold floor_of. fold m. apply sqrt_sqrt. apply Rlt_le. apply Rdiv_lt_0_compat; lra. }
  assert (1 / m <= en_ism e * en_ism e) as E4 by (rewrite <- E3; apply Rmult_le_compat; lra).
  assert (0 < en_ism e * en_ism e) as E5 by (apply Rmult_lt_0_compat; lra).
  apply (Rmult_le_reg_r (en_ism e * en_ism e)); auto. replace (1 / (en_ism e * en_ism e) * (en_ism e * en_ism e)) with 1 by (field; lra).
  apply (Rmult_le_compat_l m) in E4; [|lra]. replace (m * (1 / m)) with 1 in E4 by (field; lra). auto.
Qed.

Lemma cold_handed_either nf p n c : starts p c -> well_built p -> consistent p -> listed p -> rectangular p -> factorable p \/ kkt_solver c = 2%Z ->
  (length (p_cost p) <= SizeOfKKTSystem p)%nat ->
  initialization_mode c = 0%Z -> prepare_dual_variables c = 0%Z ->
  (0 < max_iterations c)%Z -> - / 10 ^ 15 < maximum_mu c -> / 10 ^ 15 + maximum_mu c <= infeasibility_threshold c ->
  ((0 < final_centering_steps c)%Z \/
   (0 < inv_sqrt_mu_max c /\ 0 <= kkt_error_tolerance c /\ (final_centering_steps c < max_iterations c)%Z)) ->
  (enable_rescaling c <> 0%Z -> inv_sqrt_mu_max c <> 0) ->
  qr_ready nf p c ->
  exists r y e, handed_back nf p n c r y e /\ length y = length (p_cost p).
Proof.
  intros H1 H2 H3 H4 H5 H6 H7 H8 H9 H10 H11 H12 H13 H14 H15.
  destruct (cold_solve_total nf p n c) as (r & Er & H); auto. destruct (H H5 H6) as (y & e & t & Ey & Ly & El).
  exists r, y, e. split; auto.
  constructor; auto; try (left; right; auto; fail).
  - eauto.
  - eapply Rle_trans; [|exact H12]. eapply (logged_mu _ _ _ _ _ _ H1 Er); auto. rewrite El. left. auto.
Qed.

Lemma cold_handed nf p n c : starts p c -> well_built p -> consistent p -> listed p -> rectangular p -> factorable p ->
  (length (p_cost p) <= SizeOfKKTSystem p)%nat ->
  initialization_mode c = 0%Z -> prepare_dual_variables c = 0%Z ->
  (0 < max_iterations c)%Z -> - / 10 ^ 15 < maximum_mu c -> / 10 ^ 15 + maximum_mu c <= infeasibility_threshold c ->
  ((0 < final_centering_steps c)%Z \/
   (0 < inv_sqrt_mu_max c /\ 0 <= kkt_error_tolerance c /\ (final_centering_steps c < max_iterations c)%Z)) ->
  (enable_rescaling c <> 0%Z -> inv_sqrt_mu_max c <> 0) ->
  qr_ready nf p c ->
  exists r y e, handed_back nf p n c r y e /\ length y = length (p_cost p).
Proof. intros. apply cold_handed_either; auto. Qed.
